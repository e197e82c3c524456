(** The translation of well-typed MIR: statements, terminators and blocks. *)
From Verif Require Export MiniRv.
From Coq Require Import ZifyBool ZifyN ZifyNat.

Lemma map_insert_Forall {K V} `{EqDecision K} (Q : K * V -> Prop) l k v : Forall Q l -> Q (k, v) -> Forall Q (map_insert l k v).
Proof.
  intros Hl Hk. induction Hl as [|[k' v'] l H Hl IH]; cbn [map_insert]; [by constructor|]. case_bool_decide; by constructor.
Qed.

Section Term.
  Context (R : Rustc) (HR : rustc_ok T R) (fuel : nat) (Hfuel : enough R fuel) (B : RBody) (N0 : N) (HN0 : (N.of_nat (length (ro_locals B)) <= N0)%N)
          (Hpos : (0 < length (ro_locals B))%nat).
  Notation iv := (iv R B).
  Notation vok := (vok R).
  Notation pok := (pok R).

  (** ** Functions that have all blocks made so far *)
  Definition has_kind (F : Function) (n : BbName) (k : BbKind) : Prop := exists b, map_get (fn_blocks F) n = Some b /\ bb_kind b = k.
  Record final (P : Program) (F : Function) (s : Fcx) : Prop := {
    fi_compat : compat R P (fn_locals F) s;
    fi_ret : fn_ret F = 0%N;
    fi_args : forall a, a ∈ fn_args F -> (a < N0)%N /\ ~ (N.of_nat (ro_args B) < a < N.of_nat (length (ro_locals B)))%N;
    fi_blocks : forall n b, map_get (fx_blocks s) n = Some b -> map_get (fn_blocks F) n = Some b;
    fi_mir : forall i b, ro_blocks B !! i = Some b -> has_kind F (N.of_nat i) (block_kind (rb_cleanup b));
  }.
  Lemma final_grow P F X s s' : grow X s s' -> final P F s' -> final P F s.
  Proof. intros Hg []. split; [by eapply compat_grow|done|done| |done]. intros. apply fi_blocks0. by apply (gr_blocks _ _ _ Hg). Qed.

  Definition sgood (s : Fcx) (st : Statement) : Prop := forall P F, final P F s -> statement_check_wf T P F st = Ret tt.
  Definition tgood (s : Fcx) (k : BbKind) (tm : Terminator) : Prop := forall P F, final P F s -> terminator_check_wf T P F k tm = Ret tt.
  Definition promised (F : Function) (pend : list (BbName * BbKind)) : Prop := Forall (fun p => has_kind F (fst p) (snd p)) pend.
  Definition bgood (pend : list (BbName * BbKind)) (s : Fcx) (b : BasicBlock) : Prop := forall P F, final P F s -> promised F pend ->
    Forall (fun st => statement_check_wf T P F st = Ret tt) (bb_statements b) /\ terminator_check_wf T P F (bb_kind b) (bb_terminator b) = Ret tt.
  Lemma sgood_grow X s s' st : grow X s s' -> sgood s st -> sgood s' st.
  Proof. intros Hg H P F Hf. apply H. by eapply final_grow. Qed.
  Lemma tgood_grow X s s' k tm : grow X s s' -> tgood s k tm -> tgood s' k tm.
  Proof. intros Hg H P F Hf. apply H. by eapply final_grow. Qed.
  Lemma bgood_grow pend X s s' b : grow X s s' -> bgood pend s b -> bgood pend s' b.
  Proof. intros Hg H P F Hf. apply H. by eapply final_grow. Qed.

  (** the state: consistent, and the blocks are good if the promised blocks will exist *)
  Record st (pend : list (BbName * BbKind)) (s : Fcx) : Prop := {
    st_iv : iv s;
    st_n0 : (N0 <= fx_next_local s)%N;
    st_good : forall n b, In (n, b) (fx_blocks s) -> bgood pend s b;
  }.
  Lemma st_gcx pend s s' : st pend s -> gcx s s' -> iv s' -> st pend s'.
  Proof.
    intros [Hi Hn Hg] Hx Hi'. split; [done| |].
    - pose proof (gr_nl _ _ _ (gcx_grow [] _ _ Hx)). lia.
    - rewrite (gcx_blocks _ _ Hx). intros n b Hin. eapply bgood_grow; [by apply (gcx_grow [])|]. by eapply Hg.
  Qed.

  (** ** New blocks and locals *)
  Lemma put_block_iv s n b : iv s -> (n < fx_next_bb s)%N -> iv (put_block s n b).
  Proof.
    intros [] Hn. split; try done. cbn. intros m b'. rewrite map_insert_get. case_bool_decide; [by subst|]. apply iv_bb.
  Qed.
  Lemma put_block_grow X s0 s n b : grow X s0 s -> (fx_next_bb s0 <= n)%N \/ n ∈ X -> map_get (fx_blocks s) n = None -> grow X s0 (put_block s n b).
  Proof.
    intros [] Hn Hnone. split; try done; cbn.
    - intros m b' Hm. rewrite map_insert_get. case_bool_decide; [|auto]. subst. apply gr_blocks in Hm. congruence.
    - intros m Hm HX Hmn. rewrite map_insert_get. rewrite bool_decide_eq_false_2; [auto|]. intros ->. destruct Hn; [lia|done].
  Qed.
  Lemma put_block_in s n b m x : map_get (fx_blocks s) n = None -> In (m, x) (fx_blocks (put_block s n b)) -> In (m, x) (fx_blocks s) \/ m = n /\ x = b.
  Proof.
    intros Hn. cbn. rewrite map_insert_none by done. rewrite in_app_iff. intros [H|[[= <- <-]|[]]]; auto.
  Qed.
  Lemma put_block_get s n b m : map_get (fx_blocks (put_block s n b)) m = if bool_decide (n = m) then Some b else map_get (fx_blocks s) m.
  Proof. cbn. rewrite map_insert_get. done. Qed.
  Lemma fresh_none s : iv s -> map_get (fx_blocks s) (fx_next_bb s) = None.
  Proof. intros Hs. destruct (map_get (fx_blocks s) (fx_next_bb s)) eqn:E; [|done]. apply (iv_bb _ _ _ Hs) in E. lia. Qed.
  Lemma fresh_bb_iv s : iv s -> iv (snd (fresh_bb s)).
  Proof.
    intros []. split; try done; cbn; [lia|]. intros n b Hn. apply iv_bb in Hn. lia.
  Qed.
  Lemma fresh_bb_grow X s : grow X s (snd (fresh_bb s)).
  Proof. split; try done; first [apply ext_refl|cbn; lia]. Qed.
  Lemma new_block_fine pend s b : st pend s ->
    (forall s', grow [] s s' -> bgood pend s' b) ->
    st pend (snd (new_block s b)) /\ grow [] s (snd (new_block s b)) /\ map_get (fx_blocks (snd (new_block s b))) (fst (new_block s b)) = Some b.
  Proof.
    intros [Hi Hn Hg] Hb. unfold new_block. destruct (fresh_bb s) as [n s1] eqn:E. unfold fresh_bb in E.
    pose proof (fresh_bb_iv s Hi) as Hi1. pose proof (fresh_bb_grow [] s) as Hg1. pose proof (fresh_none s Hi) as Hf.
    unfold fresh_bb in Hi1, Hg1. injection E as <- Es. rewrite Es in *. cbn [fst snd] in *.
    assert (Hf1 : map_get (fx_blocks s1) (fx_next_bb s) = None) by (by subst s1).
    assert (Hg2 : grow [] s (put_block s1 (fx_next_bb s) b)) by (apply put_block_grow; [done|left; lia|done]).
    split_and!; [split|done|].
    - apply put_block_iv; [done|]. subst s1. cbn. lia.
    - subst s1. cbn. done.
    - intros m x Hin. apply put_block_in in Hin; [|done]. destruct Hin as [Hin|[-> ->]].
      + eapply bgood_grow; [exact Hg2|]. eapply Hg. by subst s1.
      + by apply Hb.
    - by rewrite put_block_get, bool_decide_eq_true_2.
  Qed.
  Lemma new_local_fine s ty : iv s -> sized_ty T ty -> wf_ty T R ty ->
    iv (snd (new_local s ty)) /\ grow [] s (snd (new_local s ty)) /\ map_get (fx_locals (snd (new_local s ty))) (fx_next_local s) = Some ty.
  Proof.
    intros Hi Hz Hw.
    assert (Hf : map_get (fx_locals s) (fx_next_local s) = None).
    { destruct (map_get (fx_locals s) (fx_next_local s)) eqn:E; [|done]. apply (iv_lt _ _ _ Hi) in E. lia. }
    split_and!.
    - destruct Hi. split; try done; cbn.
      + intros l r Hl. destruct (iv_local _ _ Hl) as (t & Ht & Hm). exists t. split; [done|]. rewrite map_insert_get.
        rewrite bool_decide_eq_false_2; [done|]. intros E. rewrite <-E in Hm. congruence.
      + intros n t Hin. rewrite map_insert_none in Hin by done. apply in_app_iff in Hin as [Hin|[[= <- <-]|[]]]; [by eapply iv_ty|done].
      + intros n t. rewrite map_insert_get. case_bool_decide as E; [intros _; lia|]. intros Hn%iv_lt. lia.
      + lia.
    - split; try done; cbn.
      + intros n t Hn. rewrite map_insert_get. rewrite bool_decide_eq_false_2; [done|]. intros E. rewrite <-E in Hn. congruence.
      + intros n Hn Hnone. rewrite map_insert_get. rewrite bool_decide_eq_false_2; [done|]. lia.
      + lia.
    - cbn. by rewrite map_insert_get, bool_decide_eq_true_2.
  Qed.

  (** ** Statements *)
  Lemma sgood_assign s d e t : pok s t d -> vok s t e -> sized_ty T t -> sgood s (SAssign d e).
  Proof.
    intros Hd He (l & Hl & Hz) P F Hf. cbn [statement_check_wf]. rewrite (Hd P _ (fi_compat _ _ _ Hf)). cbn [obind].
    rewrite (He P _ (fi_compat _ _ _ Hf)). cbn [obind]. rewrite bool_decide_eq_true_2 by done. cbn [ensure_wf obind]. rewrite Hl. cbn [obind]. by rewrite Hz.
  Qed.
  Lemma sgood_live s n t : map_get (fx_locals s) n = Some t -> sgood s (SStorageLive n).
  Proof.
    intros Hn P F Hf. cbn [statement_check_wf]. unfold map_contains. by rewrite (proj2 (fi_compat _ _ _ Hf) _ _ Hn).
  Qed.
  Lemma sgood_dead s n t : map_get (fx_locals s) n = Some t -> (N.of_nat (ro_args B) < n < N.of_nat (length (ro_locals B)) \/ N0 <= n)%N -> sgood s (SStorageDead n).
  Proof.
    intros Hn Hr P F Hf. cbn [statement_check_wf]. unfold map_contains. rewrite (proj2 (fi_compat _ _ _ Hf) _ _ Hn). cbn [ensure_wf obind].
    rewrite (fi_ret _ _ _ Hf). rewrite bool_decide_eq_false_2 by lia. rewrite bool_decide_eq_false_2; [done|].
    intros Ha%(fi_args _ _ _ Hf). lia.
  Qed.
  Lemma unit_pok s : pok s unit_ty b_unit_place.
  Proof. intros P L Hc. unfold b_unit_place. rewrite wf_deref, wf_unit. vm_compute; reflexivity. Qed.

  (** a translated statement *)
  Definition arg_good (s : Fcx) (e : ValueExpr) : Prop := exists t, vok s t e /\ sized_ty T t.
  Definition result_good (s : Fcx) (r : StmtResult) : Prop :=
    match r with
    | SrStatement x => sgood s x
    | SrIntrinsic op d args => (exists t, pok s t d /\ sized_ty T t) /\ Forall (arg_good s) args /\ match op with InAtomicFetchAndOp _ => False | _ => True end
    end.
  Lemma stmt_fine s x : iv s -> stmt_ok T R B x ->
    fine (translate_stmt fuel R T s x) (fun r => iv (snd r) /\ gcx s (snd r) /\ result_good (snd r) (fst r)).
  Proof.
    intros Hs H. destruct H as [p rv r t [Hp Hz] Hrv|p o r pt rt [Hp Hz] Ho|p o r pt rt [Hp Hz] Ho|l Hl|l Hl|fe p r t [Hp Hz]|
                                p r vs dty d sz al v bits it y Hp Hd Hv|o Ho|p r t Hp|]; cbn [translate_stmt].
    - eapply fine_bind; [by eapply place_fine|]. intros d Hd.
      assert (Hrest : fine (let! ' (e, s') := translate_rvalue fuel R T s rv in Ret (SrStatement (SAssign d e), s'))
                        (fun r => iv (snd r) /\ gcx s (snd r) /\ result_good (snd r) (fst r))).
      { eapply fine_bind; [by eapply rvalue_fine|]. intros [e s'] (Hs' & Hg & He). cbn [fst snd] in *. cbn. split_and!; [done..|].
        eapply sgood_assign; [by eapply pok_gcx|done|done]. }
      destruct rv as [| | | | | | | | | | |k ? ?|]; try exact Hrest. destruct k; try exact Hrest; inversion Hrv.
    - eapply fine_bind; [by eapply place_fine|]. intros d Hd.
      eapply fine_bind; [by eapply operand_ty_fine|]. intros [e s'] (Hs' & Hg & He). cbn [fst snd] in *. cbn. split_and!; [done..| | |done].
      + eexists. split; [by eapply pok_gcx|done].
      + constructor; [|done]. eexists. split; [done|apply sized_ptr].
    - eapply fine_bind; [by eapply place_fine|]. intros d Hd.
      eapply fine_bind; [by eapply operand_ty_fine|]. intros [e s'] (Hs' & Hg & He). cbn [fst snd] in *. cbn. split_and!; [done..| | |done].
      + eexists. split; [by eapply pok_gcx|done].
      + constructor; [|done]. eexists. split; [done|]. destruct Ho as [? Ho]. by eapply operand_sized.
    - rewrite (local_name_fine _ _ _ _ Hs Hl). cbn. split_and!; [done|apply gcx_refl|].
      destruct (lookup_lt_is_Some_2 _ _ Hl) as [r Hr]. destruct (iv_local _ _ _ Hs _ _ Hr) as (t & _ & Ht). by eapply sgood_live.
    - rewrite (local_name_fine _ _ _ _ Hs) by lia. cbn. split_and!; [done|apply gcx_refl|].
      destruct (lookup_lt_is_Some_2 _ _ (proj2 Hl)) as [r Hr]. destruct (iv_local _ _ _ Hs _ _ Hr) as (t & _ & Ht).
      eapply sgood_dead; [done|]. lia.
    - eapply fine_bind; [by eapply place_fine|]. intros e He. cbn. split_and!; [done|apply gcx_refl|].
      intros P F Hf. cbn [fst snd] in *. cbn [statement_check_wf]. rewrite (He P _ (fi_compat _ _ _ Hf)). cbn [obind]. unfold ensure_sized.
      destruct Hz as (l & -> & Hz). cbn [obind]. by rewrite Hz.
    - eapply with_place_rty; [done..|]. unfold discriminant_for_variant. rewrite Hd. cbn [ask obind].
      eapply fine_bind; [by eapply place_fine|]. intros e He. cbn. split_and!; [done|apply gcx_refl|].
      intros P F Hf. cbn [fst snd] in *. cbn [statement_check_wf]. rewrite (He P _ (fi_compat _ _ _ Hf)). cbn [obind]. by rewrite Hv.
    - eapply fine_bind; [by eapply operand_ty_fine|]. intros [e s'] (Hs' & Hg & He). cbn [fst snd] in *. cbn. split_and!; [done..| | |done].
      + eexists. split; [apply unit_pok|apply sized_unit].
      + constructor; [|done]. eexists. split; [done|apply sized_bool].
    - eapply fine_bind; [by eapply place_fine|]. intros e He. cbn. split_and!; [done|apply gcx_refl|].
      intros P F Hf. cbn [fst snd] in *. cbn [statement_check_wf]. by rewrite (He P _ (fi_compat _ _ _ Hf)).
    - done.
  Qed.

  (** ** Terminators *)
  Lemma args_wf P L s es : compat R P L s -> Forall (arg_good s) es ->
    for_each (fun a => let! ty := value_check_wf T P L a in ensure_sized T ty "Terminator::Intrinsic: unsized argument type") es = Ret tt.
  Proof.
    intros Hc H. induction H as [|e es (t & He & l & Hl & Hz) Hes IH]; [done|]. cbn [for_each]. rewrite (He P L Hc). cbn [obind].
    unfold ensure_sized. rewrite Hl. cbn [obind]. rewrite Hz. cbn [ensure_wf obind]. exact IH.
  Qed.
  Lemma next_wf P F s c b : final P F s -> block_ok B c b -> check_next_block F (block_kind c) (N.of_nat b) = Ret tt.
  Proof.
    intros Hf (blk & Hb & <-). destruct (fi_mir _ _ _ Hf _ _ Hb) as (x & Hx & Hk). unfold check_next_block. rewrite Hx, Hk.
    by rewrite bool_decide_eq_true_2.
  Qed.
  Lemma kind_wf F k n : has_kind F n k -> check_next_block F k n = Ret tt.
  Proof. intros (x & Hx & Hk). unfold check_next_block. rewrite Hx, Hk. by rewrite bool_decide_eq_true_2. Qed.
  Lemma intrinsic_wf P F s k op d es t n : final P F s -> pok s t d -> sized_ty T t -> Forall (arg_good s) es ->
    match op with InAtomicFetchAndOp o => is_atomic_binop o | _ => true end = true ->
    match n with None => True | Some n => check_next_block F k n = Ret tt end ->
    terminator_check_wf T P F k (TmIntrinsic op es d n) = Ret tt.
  Proof.
    intros Hf Hd (l & Hl & Hz) Hes Hop Hn. cbn [terminator_check_wf]. rewrite (Hd P _ (fi_compat _ _ _ Hf)). cbn [obind].
    unfold ensure_sized at 1. rewrite Hl. cbn [obind]. rewrite Hz. cbn [ensure_wf obind].
    rewrite (args_wf P _ s es (fi_compat _ _ _ Hf) Hes). cbn [obind].
    replace (match op with InAtomicFetchAndOp _ => _ | _ => _ end) with (Ret tt : Outcome unit) by (destruct op; try done; by rewrite Hop). cbn [obind].
    by destruct n.
  Qed.
  Lemma abort_wf P F s k : final P F s -> terminator_check_wf T P F k b_abort = Ret tt.
  Proof. intros Hf. eapply intrinsic_wf; [done|apply unit_pok|apply sized_unit|done..]. Qed.

  Definition aok (s : Fcx) (a : ArgumentExpr) : Prop := exists t, (forall P L, compat R P L s -> argument_check_wf T P L a = Ret t) /\ sized_ty T t.
  Lemma aok_gcx s s' a : gcx s s' -> aok s a -> aok s' a.
  Proof. intros Hg (t & Ha & Hz). exists t. split; [|done]. intros P L Hc. apply Ha. eapply compat_grow; [by apply (gcx_grow [])|done]. Qed.
  Lemma aok_grow X s s' a : grow X s s' -> aok s a -> aok s' a.
  Proof. intros Hg (t & Ha & Hz). exists t. split; [|done]. intros P L Hc. apply Ha. by eapply compat_grow. Qed.
  Lemma call_args_wf P L s es : compat R P L s -> Forall (aok s) es ->
    for_each (fun a => let! ty := argument_check_wf T P L a in ensure_sized T ty "Terminator::Call: unsized argument type") es = Ret tt.
  Proof.
    intros Hc H. induction H as [|e es (t & He & l & Hl & Hz) Hes IH]; [done|]. cbn [for_each]. rewrite (He P L Hc). cbn [obind].
    unfold ensure_sized. rewrite Hl. cbn [obind]. rewrite Hz. cbn [ensure_wf obind]. exact IH.
  Qed.
  Lemma call_wf P F s k f conv es d t n u : final P F s -> vok s (TPtr PFnPtr) f -> pok s t d -> sized_ty T t -> Forall (aok s) es ->
    match n with None => True | Some n => check_next_block F k n = Ret tt end ->
    match u with None => True | Some n => check_unwind_block F k n = Ret tt end ->
    terminator_check_wf T P F k (TmCall f conv es d n u) = Ret tt.
  Proof.
    intros Hf Hfn Hd (l & Hl & Hz) Hes Hn Hu. cbn [terminator_check_wf]. rewrite (Hfn P _ (fi_compat _ _ _ Hf)). cbn [obind].
    rewrite bool_decide_eq_true_2 by done. cbn [ensure_wf obind]. rewrite (Hd P _ (fi_compat _ _ _ Hf)). cbn [obind].
    unfold ensure_sized at 1. rewrite Hl. cbn [obind]. rewrite Hz. cbn [ensure_wf obind].
    rewrite (call_args_wf P _ s es (fi_compat _ _ _ Hf) Hes). cbn [obind].
    replace (check_opt _ n) with (Ret tt : Outcome unit) by (by destruct n). cbn [obind]. by destruct u.
  Qed.

  (** the block to unwind to *)
  Definition ugood (s : Fcx) (c : bool) (n : BbName) : Prop := forall P F, final P F s -> check_unwind_block F (block_kind c) n = Ret tt.
  Lemma ugood_gcx s s' c n : gcx s s' -> ugood s c n -> ugood s' c n.
  Proof. intros Hg H P F Hf. apply (H P). eapply final_grow; [by apply (gcx_grow [])|done]. Qed.
  Lemma unwind_fine pend s c u : st pend s -> unwind_ok B c u ->
    fine (translate_unwind_action s u c) (fun r => st pend (snd r) /\ grow [] s (snd r) /\ ugood (snd r) c (fst r)).
  Proof.
    intros Hs Hu.
    assert (Hnew : forall tm k, (forall s', bgood pend s' (mkBlock [] tm k)) -> k = (if c then BkTerminate else BkCleanup) ->
              fine (Ret (new_block s (mkBlock [] tm k))) (fun r => st pend (snd r) /\ grow [] s (snd r) /\ ugood (snd r) c (fst r))).
    { intros tm k Hb ->. destruct (new_block_fine pend s _ Hs (fun s' _ => Hb s')) as (H1 & H2 & H3). cbn [fine]. split_and!; [done..|].
      intros P F Hf. apply (fi_blocks _ _ _ Hf) in H3. unfold check_unwind_block. destruct c; cbn [block_kind obind]; by rewrite H3. }
    destruct u as [| | |b]; cbn [translate_unwind_action].
    - cbn in Hu. subst c. cbn [negb assert_ obind]. apply Hnew; [|done]. intros s' P F Hf _. split; [constructor|done].
    - apply Hnew; [|done]. intros s' P F Hf _. split; [constructor|done].
    - apply Hnew; [|done]. intros s' P F Hf _. split; [constructor|]. exact (abort_wf P F s' _ Hf).
    - destruct Hu as [-> Hb]. rewrite (bb_name_fine _ _ _ _ (st_iv _ _ Hs)) by (destruct Hb as (? & Hb & _); by eapply lookup_lt_Some). cbn.
      split_and!; [done|apply grow_refl|]. intros P F Hf. destruct Hb as (blk & Hb & Hc). destruct (fi_mir _ _ _ Hf _ _ Hb) as (x & Hx & Hk).
      unfold check_unwind_block. cbn [block_kind obind fst]. rewrite Hx, Hk, Hc. done.
  Qed.

  Lemma opt_bb_fine s c b {A} (k : option BbName -> Outcome A) Q : iv s -> next_ok B c b ->
    (forall n, (forall P F s', final P F s' -> match n with None => True | Some n => check_next_block F (block_kind c) n = Ret tt end) -> fine (k n) Q) ->
    fine (let! n := opt_bb_name s b in k n) Q.
  Proof.
    intros Hs Hb Hk. destruct b as [b|]; cbn [opt_bb_name obind].
    - rewrite (bb_name_fine _ _ _ _ Hs) by (destruct Hb as (? & Hb & _); by eapply lookup_lt_Some). cbn [obind]. apply Hk. intros P F s' Hf.
      by eapply next_wf.
    - by apply Hk.
  Qed.
  Lemma bb_fine s c b {A} (k : BbName -> Outcome A) Q : iv s -> block_ok B c b ->
    fine (k (N.of_nat b)) Q -> fine (let! n := bb_name s b in k n) Q.
  Proof.
    intros Hs Hb Hk. rewrite (bb_name_fine _ _ _ _ Hs) by (destruct Hb as (? & Hb & _); by eapply lookup_lt_Some). done.
  Qed.

  (** what a terminator is translated to *)
  Definition tres (pend : list (BbName * BbKind)) (s : Fcx) (c : bool) (r : list Statement * Terminator * Fcx) : Prop :=
    st pend (snd r) /\ grow [] s (snd r) /\ Forall (sgood (snd r)) (fst (fst r)) /\ tgood (snd r) (block_kind c) (snd (fst r)).
  Lemma tres_gcx pend s c sts tm s' : st pend s -> gcx s s' -> iv s' -> Forall (sgood s') sts -> tgood s' (block_kind c) tm -> tres pend s c (sts, tm, s').
  Proof. intros. split_and!; [by eapply st_gcx|by apply gcx_grow|done|done]. Qed.
  Lemma goto_fine pend s c s' d e t b : st pend s -> gcx s s' -> iv s' -> pok s' t d -> vok s' t e -> sized_ty T t -> block_ok B c b ->
    fine (assign_goto s' d e (Some b)) (tres pend s c).
  Proof.
    intros Hs Hg Hi Hd He Hz Hb. unfold assign_goto. cbn [unwrap obind]. eapply bb_fine; [done..|]. cbn. apply tres_gcx; [done..| |].
    - constructor; [|done]. by eapply sgood_assign.
    - intros P F Hf. cbn [terminator_check_wf]. by eapply next_wf.
  Qed.
  Lemma operands_good s os : iv s -> Forall (operand_typed T R B) os ->
    fine (map_st (translate_operand fuel R T) os s) (fun x => iv (snd x) /\ gcx s (snd x) /\ Forall (arg_good (snd x)) (fst x)).
  Proof.
    intros Hs Hos. assert (exists ts, Forall2 (operand_ty T R B) os ts /\ Forall (sized_ty T) ts) as (ts & Hts & Hz).
    { induction Hos as [|o os [t Ho] Hos (ts & Hts & Hz)]; [by exists []|]. exists (t :: ts). split; constructor; try done.
      destruct Ho. by eapply operand_sized. }
    eapply fine_weak; [by eapply operands_fine|]. intros [es s'] (H1 & H2 & H3). split_and!; [done..|]. cbn [fst snd] in *.
    clear -Hz H3. induction H3 as [|t e ts es H H3 IH]; [done|]. inversion Hz; subst. constructor; [by exists t|auto].
  Qed.

  (** ** Arguments *)
  Lemma arg_fine s o : iv s -> operand_typed T R B o ->
    fine (translate_arg fuel R T s o) (fun x => iv (snd x) /\ gcx s (snd x) /\ aok (snd x) (fst x)).
  Proof.
    intros Hs (t & r & Ho).
    assert (Hv : fine (let! ' (e, s') := translate_operand fuel R T s o in Ret (ByValue e, s')) (fun x => iv (snd x) /\ gcx s (snd x) /\ aok (snd x) (fst x))).
    { eapply fine_bind; [by eapply operand_fine|]. intros [e s'] (H1 & H2 & H3). cbn [fst snd] in *. cbn. split_and!; [done..|].
      exists t. split; [exact H3|by eapply operand_sized]. }
    destruct o as [c|p|p|c]; try exact Hv. cbn [translate_arg]. inversion Ho as [| |? ? ? [Hp Hz]|]; subst.
    eapply fine_bind; [by eapply place_fine|]. intros e He. cbn. split_and!; [done|apply gcx_refl|]. by exists t.
  Qed.
  Lemma args_fine s os : iv s -> Forall (operand_typed T R B) os ->
    fine (map_st (translate_arg fuel R T) os s) (fun x => iv (snd x) /\ gcx s (snd x) /\ Forall (aok (snd x)) (fst x) /\ length (fst x) = length os).
  Proof.
    intros Hs Hos. eapply fine_weak; [apply (fine_map_st _ iv gcx (operand_typed T R B) (fun s _ => aok s))|].
    - apply gcx_refl.
    - apply gcx_trans.
    - intros ? ? ? ?. apply aok_gcx.
    - intros. by apply arg_fine.
    - done.
    - done.
    - intros [es s'] (H1 & H2 & H3). cbn [fst snd] in *. split_and!; [done..| |by apply Forall2_length in H3].
      clear -H3. by induction H3; constructor.
  Qed.
  Lemma projs_snoc x ps y p z : projs_ok R B x ps y -> proj_ok R B y p z -> projs_ok R B x (ps ++ [p]) z.
  Proof. induction 1; intros; cbn; (econstructor; [done|]); [constructor|auto]. Qed.
  Lemma enumerate_lookup {A} (l : list A) i x : (i, x) ∈ enumerate l -> l !! i = Some x.
  Proof.
    unfold enumerate. intros (j & Hj)%elem_of_list_lookup. apply lookup_zip_with_Some in Hj as (a & b & [= <- <-] & Ha & Hb).
    apply lookup_seq in Ha as [-> _]. done.
  Qed.
  Lemma spread_fine s (spread : bool) os : iv s -> args_ok T R B spread os ->
    (spread = true -> forall o, last os = Some o -> exists p, o = OpCopy p \/ o = OpMove p) ->
    fine (translate_args fuel R T s spread os) (fun x => iv (snd x) /\ gcx s (snd x) /\ Forall (aok (snd x)) (fst x) /\
      (length os <= length (fst x) + if spread then 1 else 0)%nat).
  Proof.
    intros Hs [Hos Hsp] Hcov. unfold translate_args. destruct spread.
    - destruct (List.rev os) as [|o others] eqn:E.
      + eapply fine_weak; [by eapply args_fine|]. intros [es s'] (H1 & H2 & H3 & H4). split_and!; [done..|lia].
      + assert (os = List.rev others ++ [o]) as -> by (by rewrite <-(rev_involutive os), E). clear E.
        destruct (Hsp eq_refl o) as (r & t & tys & Ho & Hf & Hty); [by rewrite last_snoc|].
        destruct (Hcov eq_refl o) as (p & Hp); [by rewrite last_snoc|].
        assert (sized_place T R B p r t) as [Hpl Hz] by (destruct Hp as [-> | ->]; by inversion Ho).
        apply Forall_app in Hos as [Hos _].
        assert (Hgoal : fine (let! ty := place_rty R s p in
            let! tys := unwrap (rc_fields R ty) in
            let! fields := map_m (fun f : nat * RTy =>
              let! e := translate_place R s (mkRPlace (rp_local p) (rp_proj p ++ [PjField (fst f) (snd f)])) in
              Ret (InPlace e)) (enumerate tys) in
            let! ' (es, s) := map_st (translate_arg fuel R T) (List.rev others) s in
            Ret (es ++ fields, s)) (fun x => iv (snd x) /\ gcx s (snd x) /\ Forall (aok (snd x)) (fst x) /\
              (length (List.rev others ++ [o]) <= length (fst x) + 1)%nat)); [|by destruct Hp as [-> | ->]].
        eapply with_place_rty; [done..|]. rewrite Hf. cbn [unwrap obind].
        eapply (fine_bind _ _ (Forall (aok s))).
        * assert (Hin : forall f, f ∈ enumerate tys -> exists t', field_ty t (fst f) = Some t' /\ rc_ty R (snd f) = Some t' /\ sized_ty T t').
          { intros [i r'] Hi%enumerate_lookup. by apply Hty. }
          revert Hin. induction (enumerate tys) as [|f l IH]; intros Hin; [constructor|]. cbn [map_m].
          destruct (Hin f ltac:(left)) as (t' & Hft & Hrt & Hzt). destruct Hpl as (Hrt0 & r0 & t0 & Hl0 & Ht0 & Hps).
          eapply (fine_bind _ _ (aok s)).
          -- eapply fine_bind; [eapply (place_fine _ HR _ _ _ (snd f) t'); [done|]|intros e He; cbn; exists t'; by split].
             split; [done|]. exists r0, t0. split_and!; [done..|]. cbn [rp_proj]. eapply projs_snoc; [done|]. by constructor.
          -- intros a Ha. eapply fine_bind; [apply IH; intros; apply Hin; by right|]. intros es Hes. by constructor.
        * intros fields Hfields. eapply fine_bind; [by apply args_fine|]. intros [es s'] (H1 & H2 & H3 & H4). cbn [fst snd] in *. cbn.
          split_and!; [done..| |rewrite !app_length; cbn; lia]. apply Forall_app. split; [done|]. eapply Forall_impl; [done|]. intros. by eapply aok_gcx.
    - eapply fine_weak; [by eapply args_fine|]. intros [es s'] (H1 & H2 & H3 & H4). split_and!; [done..|lia].
  Qed.

  (** ** catch_unwind *)
  Lemma local_vok s n t : map_get (fx_locals s) n = Some t -> sized_ty T t -> vok s t (ELoad (PLocal n)).
  Proof. intros Hn Hz. apply load_vok; [|done]. intros P L [_ HL]. cbn [place_check_wf]. by rewrite (HL _ _ Hn). Qed.
  Lemma local_pok' s n t : map_get (fx_locals s) n = Some t -> pok s t (PLocal n).
  Proof. intros Hn P L [_ HL]. cbn [place_check_wf]. by rewrite (HL _ _ Hn). Qed.
  Lemma i32_pok s n : map_get (fx_locals s) n = Some b_raw_void_ptr_ty -> pok s b_i32_ty (PDeref (ELoad (PLocal n)) b_i32_ty).
  Proof.
    intros Hn P L Hc. rewrite wf_deref, wf_i32. cbn [obind]. rewrite (local_vok _ _ _ Hn (sized_ptr _) P L Hc). done.
  Qed.
  Lemma sized_i32 : sized_ty T b_i32_ty.
  Proof. eexists. split; [vm_compute; reflexivity|done]. Qed.
  Lemma byval s t e : vok s t e -> sized_ty T t -> aok s (ByValue e).
  Proof. intros He Hz. by exists t. Qed.

  Lemma fresh_bb_fine s : iv s -> iv (snd (fresh_bb s)) /\ grow [] s (snd (fresh_bb s)) /\ fx_next_bb (snd (fresh_bb s)) = (fx_next_bb s + 1)%N /\
    fx_blocks (snd (fresh_bb s)) = fx_blocks s /\ fx_next_local (snd (fresh_bb s)) = fx_next_local s.
  Proof. intros Hs. split_and!; [by apply fresh_bb_iv|apply fresh_bb_grow|done..]. Qed.
  Lemma new_local_fine' s ty : iv s -> sized_ty T ty -> wf_ty T R ty -> iv (snd (new_local s ty)) /\ grow [] s (snd (new_local s ty)) /\
    map_get (fx_locals (snd (new_local s ty))) (fx_next_local s) = Some ty /\ fx_next_bb (snd (new_local s ty)) = fx_next_bb s /\
    fx_blocks (snd (new_local s ty)) = fx_blocks s /\ fx_next_local (snd (new_local s ty)) = (fx_next_local s + 1)%N.
  Proof. intros Hs Hz Hw. destruct (new_local_fine s ty Hs Hz Hw) as (H1 & H2 & H3). by split_and!. Qed.
  Lemma put_block_fine s0 s n b : iv s -> grow [] s0 s -> (fx_next_bb s0 <= n < fx_next_bb s)%N -> map_get (fx_blocks s) n = None ->
    iv (put_block s n b) /\ grow [] s0 (put_block s n b) /\ (forall m, map_get (fx_blocks (put_block s n b)) m = if bool_decide (n = m) then Some b else map_get (fx_blocks s) m) /\
    (forall m x, In (m, x) (fx_blocks (put_block s n b)) -> In (m, x) (fx_blocks s) \/ m = n /\ x = b) /\
    fx_next_bb (put_block s n b) = fx_next_bb s /\ fx_next_local (put_block s n b) = fx_next_local s /\ fx_locals (put_block s n b) = fx_locals s.
  Proof.
    intros Hs Hg Hn Hnone. split_and!; [apply put_block_iv; [done|lia]|apply put_block_grow; [done|left; lia|done]|intros; apply put_block_get|
      intros m x; by apply put_block_in|done..].
  Qed.

  Lemma wf_ty_raw mk : wf_ty T R (TPtr (PRaw mk)).
  Proof. apply wf_raw. Qed.
  Lemma wf_ty_fn : wf_ty T R (TPtr PFnPtr).
  Proof. apply wf_fnptr. Qed.
  Lemma fresh_step s {A} (k : BbName -> Fcx -> Outcome A) Q : iv s ->
    (forall s1, iv s1 -> grow [] s s1 -> fx_next_bb s1 = (fx_next_bb s + 1)%N -> fx_blocks s1 = fx_blocks s -> fx_next_local s1 = fx_next_local s ->
      fine (k (fx_next_bb s) s1) Q) -> fine (let '(n, s1) := fresh_bb s in k n s1) Q.
  Proof. intros Hs Hk. destruct (fresh_bb_fine s Hs) as (? & ? & ? & ? & ?). by apply Hk. Qed.
  Lemma local_step s ty {A} (k : LocalName -> Fcx -> Outcome A) Q : iv s -> sized_ty T ty -> wf_ty T R ty ->
    (forall s1, iv s1 -> grow [] s s1 -> map_get (fx_locals s1) (fx_next_local s) = Some ty -> fx_next_bb s1 = fx_next_bb s -> fx_blocks s1 = fx_blocks s ->
      fx_next_local s1 = (fx_next_local s + 1)%N -> fine (k (fx_next_local s) s1) Q) -> fine (let '(n, s1) := new_local s ty in k n s1) Q.
  Proof. intros Hs Hz Hw Hk. destruct (new_local_fine' s ty Hs Hz Hw) as (? & ? & ? & ? & ? & ?). by apply Hk. Qed.

  Definition catch_block1 n2 n3 l1 l2 l3 l4 d try_fn data catch_fn := mkBlock
      [SStorageLive l1; SStorageLive l2; SStorageLive l3; SStorageLive l4; SAssign (PLocal l1) (EAddrOf d (PRaw MKNone));
       SAssign (PLocal l2) try_fn; SAssign (PLocal l3) data; SAssign (PLocal l4) catch_fn]
      (TmCall (ELoad (PLocal l2)) CcRust [ByValue (ELoad (PLocal l3))] b_unit_place (Some n2) (Some n3)) BkRegular.
  Definition catch_block2 l1 l2 l3 l4 b := mkBlock
      (SAssign (PDeref (ELoad (PLocal l1)) b_i32_ty) (b_const_int b_i32_ty 0) :: [SStorageDead l1; SStorageDead l2; SStorageDead l3; SStorageDead l4])
      (TmGoto b) BkRegular.
  Definition catch_block3 n4 l5 := mkBlock [SStorageLive l5] (TmIntrinsic InGetUnwindPayload [] (PLocal l5) (Some n4)) BkCatch.
  Definition catch_block4 n5 l1 l3 l4 l5 := mkBlock [SAssign (PDeref (ELoad (PLocal l1)) b_i32_ty) (b_const_int b_i32_ty 1)]
      (TmCall (ELoad (PLocal l4)) CcRust [ByValue (ELoad (PLocal l3)); ByValue (ELoad (PLocal l5))] b_unit_place (Some n5) None) BkCatch.
  Definition catch_block5 l1 l2 l3 l4 b := mkBlock [SStorageDead l1; SStorageDead l2; SStorageDead l3; SStorageDead l4] (TmStopUnwind b) BkCatch.
  Lemma catch_blocks pend s s10 n1 n2 n3 n4 n5 l1 l2 l3 l4 l5 d try_fn data catch_fn b : st pend s -> pok s (TInt (mkIntTy Signed 4)) d -> block_ok B false b ->
    vok s (TPtr PFnPtr) try_fn -> vok s (TPtr (PRaw MKNone)) data -> vok s (TPtr PFnPtr) catch_fn ->
    iv s10 -> grow [] s s10 -> fx_blocks s10 = fx_blocks s -> (fx_next_bb s = n1 /\ n2 = n1 + 1 /\ n3 = n2 + 1 /\ n4 = n3 + 1 /\ n5 = n4 + 1 /\ fx_next_bb s10 = n5 + 1)%N ->
    (N0 <= l1 /\ l1 < l2 /\ l2 < l3 /\ l3 < l4 /\ l4 < l5)%N ->
    map_get (fx_locals s10) l1 = Some b_raw_void_ptr_ty -> map_get (fx_locals s10) l2 = Some (TPtr PFnPtr) -> map_get (fx_locals s10) l3 = Some b_raw_void_ptr_ty ->
    map_get (fx_locals s10) l4 = Some (TPtr PFnPtr) -> map_get (fx_locals s10) l5 = Some b_raw_void_ptr_ty ->
    forall q5, q5 = put_block (put_block (put_block (put_block (put_block s10 n1 (catch_block1 n2 n3 l1 l2 l3 l4 d try_fn data catch_fn))
        n2 (catch_block2 l1 l2 l3 l4 (N.of_nat b))) n3 (catch_block3 n4 l5)) n4 (catch_block4 n5 l1 l3 l4 l5)) n5 (catch_block5 l1 l2 l3 l4 (N.of_nat b)) ->
    st pend q5 /\ grow [] s q5 /\ tgood q5 BkRegular (TmGoto n1).
  Proof.
    intros [Hi Hn0 Hgood] Hd Hb Htry Hdata Hcatch I10 Gs Bs' (N1 & N2 & N3 & N4 & N5 & N6) (L1 & L2 & L3 & L4 & L5) M6 M7 M8 M9 M10 q5.
    assert (Hnone : forall m, (n1 <= m)%N -> map_get (fx_blocks s) m = None).
    { intros m Hm. destruct (map_get (fx_blocks s) m) eqn:E; [|done]. apply (iv_bb _ _ _ Hi) in E. lia. }
    assert (Hl10 : (N0 <= fx_next_local s10)%N) by (pose proof (gr_nl _ _ _ Gs); lia).
    destruct (put_block_fine s s10 n1 (catch_block1 n2 n3 l1 l2 l3 l4 d try_fn data catch_fn) I10 Gs)
      as (J1 & H1 & Q1 & R1 & P1 & O1 & C1); [lia|rewrite Bs'; apply Hnone; lia|]. generalize dependent (put_block s10 n1 (catch_block1 n2 n3 l1 l2 l3 l4 d try_fn data catch_fn)). intros q1 J1 H1 Q1 R1 P1 O1 C1.
    destruct (put_block_fine s q1 n2 (catch_block2 l1 l2 l3 l4 (N.of_nat b)) J1 H1)
      as (J2 & H2 & Q2 & R2 & P2 & O2 & C2); [lia|rewrite Q1, bool_decide_eq_false_2, Bs' by lia; apply Hnone; lia|]. generalize dependent (put_block q1 n2 (catch_block2 l1 l2 l3 l4 (N.of_nat b))). intros q2 J2 H2 Q2 R2 P2 O2 C2.
    destruct (put_block_fine s q2 n3 (catch_block3 n4 l5) J2 H2)
      as (J3 & H3 & Q3 & R3 & P3 & O3 & C3); [lia|rewrite Q2, Q1, !bool_decide_eq_false_2, Bs' by lia; apply Hnone; lia|]. generalize dependent (put_block q2 n3 (catch_block3 n4 l5)). intros q3 J3 H3 Q3 R3 P3 O3 C3.
    destruct (put_block_fine s q3 n4 (catch_block4 n5 l1 l3 l4 l5) J3 H3)
      as (J4 & H4 & Q4 & R4 & P4 & O4 & C4); [lia|rewrite Q3, Q2, Q1, !bool_decide_eq_false_2, Bs' by lia; apply Hnone; lia|]. generalize dependent (put_block q3 n4 (catch_block4 n5 l1 l3 l4 l5)). intros q4 J4 H4 Q4 R4 P4 O4 C4.
    destruct (put_block_fine s q4 n5 (catch_block5 l1 l2 l3 l4 (N.of_nat b)) J4 H4)
      as (J5 & H5 & Q5 & R5 & P5 & O5 & C5); [lia|rewrite Q4, Q3, Q2, Q1, !bool_decide_eq_false_2, Bs' by lia; apply Hnone; lia|]. intros E0. rewrite <-E0 in J5, H5, Q5, R5, P5, O5, C5. clear E0.
    assert (C : fx_locals s10 = fx_locals q5) by congruence. rewrite C in M6, M7, M8, M9, M10.
    assert (E1 : map_get (fx_blocks q5) n1 <> None /\ forall P F, final P F q5 -> has_kind F n1 BkRegular).
    { rewrite Q5, Q4, Q3, Q2, Q1, !(bool_decide_eq_false_2 (_ = n1)) by lia. rewrite bool_decide_eq_true_2 by done. split; [done|].
      intros P F Hf. eexists. split; [apply (fi_blocks _ _ _ Hf); rewrite Q5, Q4, Q3, Q2, Q1, !(bool_decide_eq_false_2 (_ = n1)) by lia; by rewrite bool_decide_eq_true_2|done]. }
    assert (E2 : forall P F, final P F q5 -> has_kind F n2 BkRegular).
    { intros P F Hf. eexists. split; [apply (fi_blocks _ _ _ Hf); rewrite Q5, Q4, Q3, Q2, !(bool_decide_eq_false_2 (_ = n2)) by lia; by rewrite bool_decide_eq_true_2|done]. }
    assert (E3 : forall P F, final P F q5 -> has_kind F n3 BkCatch).
    { intros P F Hf. eexists. split; [apply (fi_blocks _ _ _ Hf); rewrite Q5, Q4, Q3, !(bool_decide_eq_false_2 (_ = n3)) by lia; by rewrite bool_decide_eq_true_2|done]. }
    assert (E4 : forall P F, final P F q5 -> has_kind F n4 BkCatch).
    { intros P F Hf. eexists. split; [apply (fi_blocks _ _ _ Hf); rewrite Q5, Q4, !(bool_decide_eq_false_2 (_ = n4)) by lia; by rewrite bool_decide_eq_true_2|done]. }
    assert (E5 : forall P F, final P F q5 -> has_kind F n5 BkCatch).
    { intros P F Hf. eexists. split; [apply (fi_blocks _ _ _ Hf); rewrite Q5; by rewrite bool_decide_eq_true_2|done]. }
    pose proof (vok_grow _ _ _ _ _ _ H5 Htry) as Htry'. pose proof (vok_grow _ _ _ _ _ _ H5 Hdata) as Hdata'. pose proof (vok_grow _ _ _ _ _ _ H5 Hcatch) as Hcatch'.
    pose proof (pok_grow _ _ _ _ _ _ H5 Hd) as Hd'.
    assert (Hdeads : forall l t, map_get (fx_locals q5) l = Some t -> (l1 <= l)%N -> sgood q5 (SStorageDead l)) by (intros l t Hl Hle; eapply sgood_dead; [done|right; lia]).
    split_and!; [split|done|].
    - done.
    - lia.
    - intros m x Hin. apply R5 in Hin as [Hin|[-> ->]]; [apply R4 in Hin as [Hin|[-> ->]]; [apply R3 in Hin as [Hin|[-> ->]]; [apply R2 in Hin as [Hin|[-> ->]]; [apply R1 in Hin as [Hin|[-> ->]]|]|]|]|].
      + eapply bgood_grow; [exact H5|]. eapply Hgood. by rewrite <-Bs'.
      + intros P F Hf _. split.
        * repeat (apply Forall_cons; split); [by eapply sgood_live..| | | | |constructor].
          -- eapply sgood_assign; [by apply local_pok'| |apply sized_ptr|done]. by eapply addr_vok.
          -- eapply sgood_assign; [by apply local_pok'|done|apply sized_ptr|done].
          -- eapply sgood_assign; [by apply local_pok'|done|apply sized_ptr|done].
          -- eapply sgood_assign; [by apply local_pok'|done|apply sized_ptr|done].
        * eapply call_wf; [done|by apply local_vok; [|apply sized_ptr]|apply unit_pok|apply sized_unit| | |].
          -- constructor; [|done]. eapply byval; [by apply local_vok; [|apply sized_ptr]|apply sized_ptr].
          -- apply kind_wf. by eapply E2.
          -- destruct (E3 _ _ Hf) as (x & Hx & Hk). unfold check_unwind_block. cbn. by rewrite Hx, Hk.
      + intros P F Hf _. split.
        * repeat (apply Forall_cons; split); [|by eapply Hdeads; [|lia|]..|constructor].
          eapply sgood_assign; [by apply i32_pok| |apply sized_i32|done]. apply const_vok; [done|]. apply wf_i32.
        * cbn [bb_kind bb_terminator terminator_check_wf]. by eapply (next_wf _ _ _ false).
      + intros P F Hf _. split.
        * repeat (apply Forall_cons; split); [by eapply sgood_live|constructor].
        * eapply intrinsic_wf; [done|by apply local_pok'|apply sized_ptr|done|done|]. apply kind_wf. by eapply E4.
      + intros P F Hf _. split.
        * repeat (apply Forall_cons; split); [|constructor].
          eapply sgood_assign; [by apply i32_pok| |apply sized_i32|done]. apply const_vok; [done|]. apply wf_i32.
        * eapply call_wf; [done|by apply local_vok; [|apply sized_ptr]|apply unit_pok|apply sized_unit| | |done].
          -- constructor; [eapply byval; [by apply local_vok; [|apply sized_ptr]|apply sized_ptr]|].
             constructor; [eapply byval; [by apply local_vok; [|apply sized_ptr]|apply sized_ptr]|constructor].
          -- apply kind_wf. by eapply E5.
      + intros P F Hf _. split.
        * repeat (apply Forall_cons; split); [by eapply Hdeads; [|lia|]..|constructor].
        * unfold catch_block5. cbn [bb_kind bb_terminator terminator_check_wf]. rewrite bool_decide_eq_true_2 by done. cbn [ensure_wf obind].
          by eapply (next_wf _ _ _ false).
    - intros P F Hf. cbn [terminator_check_wf]. apply kind_wf. by eapply E1.
  Qed.

  Lemma catch_fine pend s args d b : st pend s -> pok s (TInt (mkIntTy Signed 4)) d -> block_ok B false b ->
    Forall2 (vok s) [TPtr PFnPtr; TPtr (PRaw MKNone); TPtr PFnPtr] args ->
    fine (translate_catch_unwind s args d (N.of_nat b)) (fun r => st pend (snd r) /\ grow [] s (snd r) /\ tgood (snd r) BkRegular (fst r)).
  Proof.
    intros Hs Hd Hb Hargs. inversion Hargs as [|? try_fn ? ? Htry Ha1]; subst. inversion Ha1 as [|? data ? ? Hdata Ha2]; subst.
    inversion Ha2 as [|? catch_fn ? ? Hcatch Ha3]; subst. inversion Ha3; subst. clear Hargs Ha1 Ha2 Ha3.
    unfold translate_catch_unwind. cbn [lookup list_lookup unwrap obind].
    apply fresh_step; [by apply st_iv in Hs|]. intros s1 I1 G1 N1 B1 L1.
    apply fresh_step; [done|]. intros s2 I2 G2 N2 B2 L2. apply (grow_trans _ _ _ _ G1) in G2. clear I1 G1.
    apply fresh_step; [done|]. intros s3 I3 G3 N3 B3 L3. apply (grow_trans _ _ _ _ G2) in G3. clear I2 G2.
    apply fresh_step; [done|]. intros s4 I4 G4 N4 B4 L4. apply (grow_trans _ _ _ _ G3) in G4. clear I3 G3.
    apply fresh_step; [done|]. intros s5 I5 G5 N5 B5 L5. apply (grow_trans _ _ _ _ G4) in G5. clear I4 G4.
    apply local_step; [done|apply sized_ptr|apply wf_ty_raw|]. intros s6 I6 G6 M6 N6 B6 L6. apply (grow_trans _ _ _ _ G5) in G6 as H6. clear I5 G5.
    apply local_step; [done|apply sized_ptr|apply wf_ty_fn|]. intros s7 I7 G7 M7 N7 B7 L7. apply (grow_trans _ _ _ _ H6) in G7 as H7. clear I6 H6.
    apply local_step; [done|apply sized_ptr|apply wf_ty_raw|]. intros s8 I8 G8 M8 N8 B8 L8. apply (grow_trans _ _ _ _ H7) in G8 as H8. clear I7 H7.
    apply local_step; [done|apply sized_ptr|apply wf_ty_fn|]. intros s9 I9 G9 M9 N9 B9 L9. apply (grow_trans _ _ _ _ H8) in G9 as H9. clear I8 H8.
    apply local_step; [done|apply sized_ptr|apply wf_ty_raw|]. intros s10 I10 G10 M10 N10 B10 L10. apply (grow_trans _ _ _ _ H9) in G10 as H10. clear I9 H9.
    apply (gr_locals _ _ _ G7) in M6. apply (gr_locals _ _ _ G8) in M6, M7. apply (gr_locals _ _ _ G9) in M6, M7, M8. apply (gr_locals _ _ _ G10) in M6, M7, M8, M9.
    clear G6 G7 G8 G9 G10. pose proof (st_n0 _ _ Hs) as Hn0.
    apply (catch_blocks pend s s10 (fx_next_bb s) (fx_next_bb s1) (fx_next_bb s2) (fx_next_bb s3) (fx_next_bb s4)
      (fx_next_local s5) (fx_next_local s6) (fx_next_local s7) (fx_next_local s8) (fx_next_local s9) d try_fn data catch_fn b); try eassumption;
      [congruence|split_and!; (reflexivity || lia)|split_and!; lia|reflexivity].
  Qed.

  (** ** Calls *)
  Lemma tgood_goto s c b : block_ok B c b -> tgood s (block_kind c) (TmGoto (N.of_nat b)).
  Proof. intros Hb P F Hf. cbn [terminator_check_wf]. by eapply next_wf. Qed.
  Lemma tres_same pend s c tm : st pend s -> tgood s (block_kind c) tm -> tres pend s c ([], tm, s).
  Proof. intros Hs Ht. apply tres_gcx; [done|apply gcx_refl|by apply st_iv in Hs|constructor|done]. Qed.
  Lemma operand_fine' s o t : iv s -> operand_ty T R B o t ->
    fine (translate_operand fuel R T s o) (fun x => iv (snd x) /\ gcx s (snd x) /\ vok (snd x) t (fst x)).
  Proof. intros. by apply operand_ty_fine. Qed.
  Lemma pointee_fine s o r p size {A} (k : Size -> Outcome A) Q t : iv s -> operand_ok T R B o r t -> rc_deref R r = Some p -> rc_size R p = Some size ->
    fine (k size) Q -> fine (let! x := pointee_size R s o in k x) Q.
  Proof.
    intros Hs Ho Hp Hsz Hk. eapply (fine_bind _ _ (fun x => x = size)); [|by intros ? ->]. unfold pointee_size. eapply with_rty; [done..|].
    rewrite Hp. cbn. by rewrite Hsz.
  Qed.
  Lemma place_fine' s s' p r t {A} (k : PlaceExpr -> Outcome A) Q : iv s' -> gcx s s' -> place_ok R B p r t -> (forall d, pok s' t d -> fine (k d) Q) ->
    fine (let! d := translate_place R s' p in k d) Q.
  Proof. intros Hs Hg Hp Hk. eapply fine_bind; [by eapply place_fine|]. exact Hk. Qed.

  Lemma rs_intrinsic_fine pend s c i args d b : st pend s -> rs_intrinsic_ok T R B c i args d b -> (i = RiCatchUnwind -> c = false) ->
    fine (translate_rs_intrinsic fuel R T s i args d b) (tres pend s c).
  Proof.
    intros Hs H Hcov. pose proof (st_iv _ _ Hs) as Hi. destruct H as [ok args d b Hb|args d r t b Ha [Hd Hz] Hb|l o it rl p size d r b Hl Ho Hdr Hsz Hrep [Hd Hz] Hb|
      u l o rl p size d r b Hl Ho Hdr Hsz Hrep [Hd Hz] Hb|o it d r b Ho [Hd Hz] Hb|l o it d r b Hl Ho [Hd Hz] Hb|rt o pt t d r b Ht Ho Hm [Hd Hz] Hb|
      rt o pt t d r b Ht Ho Hm [Hd Hz] Hb|args d b Hb|f data g d r b Hf Hda Hg [Hd Hz] Hb|args d b|args d b]; cbn [translate_rs_intrinsic].
    - destruct ok; cbn [unwrap obind].
      + eapply bb_fine; [done..|]. cbn. apply tres_same; [done|]. by apply tgood_goto.
      + cbn. apply tres_same; [done|]. intros P F Hf. by eapply abort_wf.
    - eapply fine_bind; [by eapply operands_good|]. intros [es s'] (H1 & H2 & H3). cbn [fst snd] in *.
      eapply place_fine'; [done..|]. intros e He. eapply opt_bb_fine; [done..|]. intros n Hn. cbn. apply tres_gcx; [done..|constructor|].
      intros P F Hf. eapply intrinsic_wf; [done|done|done|done|done|]. by eapply Hn.
    - cbn [lookup list_lookup unwrap obind]. destruct Ho as [ro Ho]. eapply with_rty; [done..|].
      eapply two_operands; [done|done|done|by eexists|by eexists|]. intros el er s' Hs' Hg' Hel Her.
      eapply place_fine'; [done..|]. intros e He. eapply pointee_fine; [done..|]. eapply ask_ty; [by eapply operand_rc|].
      eapply goto_fine; [done..| |done|done]. eapply offset_vok; [done|]. apply int_vok; [done|]. apply const_wf_vok; [done|].
      apply operand_rc in Ho; [|done]. by apply HR in Ho.
    - cbn [lookup list_lookup unwrap obind].
      eapply two_operands; [done|done|done|by eexists|done|]. intros el er s' Hs' Hg' Hel Her.
      eapply place_fine'; [done..|]. intros e He. eapply pointee_fine; [done..|].
      assert (Hq : vok s' (TInt (mkIntTy Signed (PTR_SIZE T))) (b_int_binop IDivExact (EBinOp (BPtrOffsetFrom false u) el er) (b_const_int (b_isize_ty T) (Z.of_N size)))).
      { apply int_vok; [by eapply bin_vok|]. apply const_vok; [done|]. apply wf_isize. }
      destruct u; cbn [obind].
      + eapply goto_fine; [done..| |done|done]. eapply un_vok; [done|]. done.
      + by eapply goto_fine.
    - cbn [lookup list_lookup unwrap obind]. eapply fine_bind; [by eapply operand_fine'|]. intros [e s'] (H1 & H2 & H3). cbn [fst snd] in *.
      eapply place_fine'; [done..|]. intros e' He'. eapply goto_fine; [done..| |done|done]. by eapply un_vok.
    - cbn [lookup list_lookup unwrap obind]. eapply two_operands; [done|done|done|done|done|]. intros el er s' Hs' Hg' Hel Her.
      eapply place_fine'; [done..|]. intros e' He'. eapply goto_fine; [done..| |done|done]. by apply int_vok.
    - eapply place_fine'; [done|apply gcx_refl|done|]. intros e' He'. cbn [lookup list_lookup unwrap obind].
      eapply fine_bind; [by eapply operand_fine'|]. intros [e s'] (H1 & H2 & H3). cbn [fst snd] in *. eapply ask_ty; [done|].
      eapply goto_fine; [done..|by eapply pok_gcx| |done|done]. eapply un_vok; [by eapply meta_vok|]. intros P HP. cbn [unop_check_wf].
      unfold has_trait. rewrite HP, (ro_ty _ _ HR _ _ Ht). cbn [obind]. rewrite Hm. by rewrite bool_decide_eq_true_2.
    - eapply place_fine'; [done|apply gcx_refl|done|]. intros e' He'. cbn [lookup list_lookup unwrap obind].
      eapply fine_bind; [by eapply operand_fine'|]. intros [e s'] (H1 & H2 & H3). cbn [fst snd] in *. eapply ask_ty; [done|].
      eapply goto_fine; [done..|by eapply pok_gcx| |done|done]. eapply un_vok; [by eapply meta_vok|]. intros P HP. cbn [unop_check_wf].
      unfold has_trait. rewrite HP, (ro_ty _ _ HR _ _ Ht). cbn [obind]. rewrite Hm. by rewrite bool_decide_eq_true_2.
    - cbn [unwrap obind]. eapply bb_fine; [done..|]. cbn. apply tres_same; [done|]. by apply tgood_goto.
    - specialize (Hcov eq_refl). subst c.
      eapply fine_bind; [eapply (operands_fine R HR fuel Hfuel B _ _ [TPtr PFnPtr; TPtr (PRaw MKNone); TPtr PFnPtr]); [done|]; repeat constructor; done|].
      intros [es s'] (H1 & H2 & H3). cbn [fst snd] in *. eapply place_fine'; [done..|]. intros e' He'. cbn [unwrap obind].
      eapply bb_fine; [done..|]. eapply fine_bind; [eapply (catch_fine pend); [by eapply st_gcx|done..]|]. intros [tm s''] (K1 & K2 & K3). cbn [fst snd] in *. cbn.
      split_and!; cbn [fst snd]; [done| |constructor|done]. eapply grow_trans; [by apply gcx_grow|done].
    - cbn. apply tres_same; [done|]. intros P F Hf. by eapply abort_wf.
    - done.
  Qed.

  Lemma method_vok s recv pt tn m : vok s (TPtr pt) recv -> ptr_meta_kind pt = MKVTablePointer tn ->
    (exists ms, map_get (traits_of R) tn = Some ms /\ m ∈ ms) -> vok s (TPtr PFnPtr) (b_vtable_method_lookup (b_get_metadata recv) m).
  Proof.
    intros Hr Hm (ms & Hms & Hin). eapply un_vok; [by eapply meta_vok|]. intros P HP. rewrite Hm. cbn [meta_kind_ty unop_check_wf].
    rewrite HP, Hms. cbn [unwrap obind]. by rewrite bool_decide_eq_true_2.
  Qed.

  Lemma panic_fine pend s u c : st pend s -> unwind_ok B c u -> (rc_unwinds R = true -> c = false) ->
    fine (translate_panic R s u c) (fun r => st pend (snd r) /\ grow [] s (snd r) /\ tgood (snd r) (block_kind c) (fst r)).
  Proof.
    intros Hs Hu Hc. unfold translate_panic. destruct (rc_unwinds R).
    - rewrite (Hc eq_refl) in *. eapply fine_bind; [by eapply unwind_fine|]. intros [n s'] (H1 & H2 & H3). cbn. split_and!; [done..|].
      intros P F Hf. cbn [terminator_check_wf fst]. cbn [fst snd] in *. unfold b_unit_ptr, b_raw_void_ptr_ty, b_raw_ptr_ty. cbn [value_check_wf]. rewrite wf_raw.
      cbn [obind]. replace (constant_check_wf T P _ _) with (Ret tt : Outcome unit) by (vm_compute; reflexivity). cbn [obind].
      rewrite bool_decide_eq_true_2 by done. cbn [ensure_wf obind]. by apply (H3 P).
    - cbn. split_and!; [done|apply grow_refl|]. intros P F Hf. by eapply abort_wf.
  Qed.

  Lemma mini_intrinsic_ok name op : mini_intrinsic name = Some op -> match op with InAtomicFetchAndOp o => is_atomic_binop o | _ => true end = true.
  Proof.
    unfold mini_intrinsic. intros H. destruct op as [| | | | | | | | | | | | |o| | | |]; try done.
    repeat match type of H with
    | match ?x with _ => _ end = _ => destruct x; try discriminate H
    end; injection H as <-; reflexivity.
  Qed.
  Lemma call_fine pend s c f args d b u : st pend s -> call_ok T R B c f args d b u -> covered_call T R B c f args ->
    fine (translate_call fuel R T s f args d b u c) (tres pend s c).
  Proof.
    intros Hs H Hcov. pose proof (st_iv _ _ Hs) as Hi. destruct H as [f conv args d r t b u Hf Ha [Hd Hz] Hb Hu|i args d b u Hii|name args d r t b u Ha [Hd Hz] Hb|
      args d b u Hu|args d b u|conv spread f args d r t b u Ha [Hd Hz] Hb Hu|conv spread m o args d r t b u pt tn Ho Hpt Ha Hne [Hd Hz] Hb Hu]; cbn [translate_call].
    - eapply fine_bind; [by eapply operand_fine'|]. intros [e s1] (H1 & H2 & H3). cbn [fst snd] in *.
      eapply fine_bind; [apply fine_ask'|]. intros cv _. eapply fine_bind; [eapply args_fine; [done|apply Ha]|]. intros [es s2] (K1 & K2 & K3 & _). cbn [fst snd] in *.
      pose proof (gcx_trans _ _ _ H2 K2) as G2.
      eapply fine_bind; [eapply (unwind_fine pend); [by eapply st_gcx|done]|]. intros [ub s3] (J1 & J2 & J3). cbn [fst snd] in *.
      eapply fine_bind; [eapply place_fine; [done|by apply st_iv in J1|done]|]. intros e' He'. eapply opt_bb_fine; [by apply st_iv in J1|done|]. intros n Hn. cbn.
      split_and!; cbn [fst snd]; [done|eapply grow_trans; [by apply gcx_grow|done]|constructor|]. intros P F Hfi. eapply call_wf; [done|..|by eapply Hn|by apply (J3 P)].
      + eapply vok_grow; [exact J2|]. eapply vok_gcx; [exact K2|done].
      + done.
      + done.
      + eapply Forall_impl; [done|]. intros. by eapply aok_grow.
    - eapply rs_intrinsic_fine; [done..|]. intros ->. apply Hcov.
    - eapply fine_bind; [apply fine_ask'|]. intros op Hop. eapply fine_bind; [eapply operands_good; [done|apply Ha]|]. intros [es s'] (H1 & H2 & H3). cbn [fst snd] in *.
      eapply place_fine'; [done..|]. intros e He. eapply opt_bb_fine; [done..|]. intros n Hn. cbn. apply tres_gcx; [done..|constructor|].
      intros P F Hf. eapply intrinsic_wf; [done|done|done|done| |by eapply Hn].
      by eapply mini_intrinsic_ok.
    - eapply fine_bind; [eapply (panic_fine pend); [done|done|apply Hcov]|]. intros [tm s'] (H1 & H2 & H3). cbn. split_and!; [done..|constructor|done].
    - done.
    - eapply fine_bind; [apply fine_ask'|]. intros cv _. eapply fine_bind; [by eapply spread_fine; [..|apply Hcov]|]. intros [es s1] (H1 & H2 & H3 & _). cbn [fst snd] in *.
      eapply fine_bind; [eapply (unwind_fine pend); [by eapply st_gcx|done]|]. intros [ub s2] (J1 & J2 & J3). cbn [fst snd] in *.
      pose proof (get_fn_name_ok R [] (fx_cx s2) f (iv_cx _ _ _ (st_iv _ _ J1))) as Hok. pose proof (get_fn_name_ext (fx_cx s2) f) as [Hx _].
      pose proof (fun P L => fn_ptr_wf R P L (fx_cx s2) f) as Hfn.
      destruct (get_fn_name (fx_cx s2) f) as [n c'] eqn:E. cbn [fst snd] in *.
      assert (K1 : iv (set_cx s2 c')) by (apply set_cx_iv; [by apply st_iv in J1|done]).
      assert (K2 : gcx s2 (set_cx s2 c')) by (by apply set_cx_gcx).
      eapply place_fine'; [done..|]. intros e He. eapply opt_bb_fine; [done..|]. intros nx Hn. cbn.
      split_and!; cbn [fst snd]; [by eapply st_gcx|eapply grow_trans; [by apply gcx_grow|]; eapply grow_trans; [done|by apply gcx_grow]|constructor|].
      intros P F Hfi. eapply call_wf; [done|..|by eapply Hn|by eapply (ugood_gcx _ _ _ _ K2 J3 P)].
      + intros P' L' [Hh _]. by apply Hfn.
      + done.
      + done.
      + eapply Forall_impl; [done|]. intros. eapply aok_gcx; [done|]. by eapply aok_grow.
    - eapply fine_bind; [apply fine_ask'|]. intros cv _. destruct Hcov as [Hcov1 Hcov2]. eapply fine_bind; [by eapply spread_fine|]. intros [es s1] (H1 & H2 & H3 & Hlen). cbn [fst snd] in *.
      eapply fine_bind; [eapply (unwind_fine pend); [by eapply st_gcx|done]|]. intros [ub s2] (J1 & J2 & J3). cbn [fst snd] in *.
      cbn [lookup list_lookup unwrap obind]. eapply fine_bind; [eapply operand_fine'; [by apply st_iv in J1|done]|]. intros [recv s3] (K1 & K2 & K3). cbn [fst snd] in *.
      destruct es as [|e0 es]; [exfalso; cbn in Hlen; destruct spread; [|lia]; destruct args; [by apply Hne|cbn in Hlen; lia]|]. cbn [obind].
      eapply place_fine'; [done..|]. intros e He. eapply opt_bb_fine; [done..|]. intros nx Hn. cbn.
      split_and!; cbn [fst snd]; [by eapply st_gcx|eapply grow_trans; [by apply gcx_grow|]; eapply grow_trans; [done|by apply gcx_grow]|constructor|].
      intros P F Hfi. eapply call_wf; [done|..|by eapply Hn|by eapply (ugood_gcx _ _ _ _ K2 J3 P)].
      + eapply method_vok; [done..|]. by eapply Hcov2.
      + done.
      + done.
      + constructor; [eapply byval; [by eapply thin_vok|apply sized_ptr]|]. apply Forall_inv_tail in H3.
        eapply Forall_impl; [done|]. intros. eapply aok_gcx; [done|]. by eapply aok_grow.
  Qed.

  (** ** Terminators *)
  Lemma add_block_fine s n b {A} (k : Fcx -> Outcome A) Q : map_get (fx_blocks s) n = None -> fine (k (put_block s n b)) Q -> fine (let! s' := add_block s n b in k s') Q.
  Proof. intros Hn Hk. unfold add_block, try_insert, map_contains. rewrite Hn. exact Hk. Qed.

  Lemma term_fine pend s c tm : st pend s -> term_ok T R B c tm -> covered_term T R B c tm ->
    fine (translate_terminator fuel R T s tm c) (tres pend s c).
  Proof.
    intros Hs H Hcov. pose proof (st_iv _ _ Hs) as Hi. destruct H as [Hc|b Hb|f args d b u Hc|o t ts b Ho Hts Hb| |o e b u Ho Hb Hu|p f r t b u Hp Hb Hu|Hc|]; cbn [translate_terminator].
    - cbn. apply tres_same; [done|]. intros P F Hf. by subst c.
    - eapply bb_fine; [done..|]. cbn. apply tres_same; [done|]. by apply tgood_goto.
    - by eapply call_fine.
    - destruct Ho as [ro Ho]. eapply with_rty; [done..|]. eapply ask_ty; [by eapply operand_rc|].
      eapply fine_bind; [by eapply operand_fine|]. intros [e s'] (H1 & H2 & H3). cbn [fst snd] in *.
      eapply (fine_bind _ _ (fun x => vok s' (TInt (snd x)) (fst x) /\ it_size (snd x) <> 0%N)).
      { destruct t; try done; cbn.
        - split; [done|]. apply pow2_nonzero. apply operand_rc in Ho; [|done]. apply HR in Ho. by eapply wf_int.
        - split; [|done]. by apply bool_u8_vok. }
      intros [v it] [Hv Hit]. cbn [fst snd] in *.
      eapply (fine_bind _ _ (Forall (fun x : Z * BbName => can_represent it (fst x) = true /\ exists b, block_ok B c b /\ snd x = N.of_nat b))).
      { assert (Hacc : Forall (fun x : Z * BbName => can_represent it (fst x) = true /\ exists b, block_ok B c b /\ snd x = N.of_nat b) []) by constructor.
        revert Hacc. generalize (@nil (Z * BbName)). clear Hcov. induction Hts as [|[z b'] ts Hb' Hts IH]; intros acc Hacc; [done|]. cbn [fold_m fst snd] in *.
        rewrite (bb_name_fine _ _ _ _ H1) by (destruct Hb' as (? & Hb' & _); by eapply lookup_lt_Some). cbn [obind]. apply IH.
        apply map_insert_Forall; [done|]. split; [by apply int_from_bits_fits|]. by exists b'. }
      intros cases Hcases. eapply bb_fine; [done..|]. cbn. apply tres_gcx; [done..|constructor|]. intros P F Hf. cbn [terminator_check_wf].
      rewrite (Hv P _ (fi_compat _ _ _ Hf)). cbn [obind].
      replace (for_each _ cases) with (Ret tt : Outcome unit); [cbn [obind]; by eapply next_wf|].
      symmetry. induction Hcases as [|x cases (Hx & b' & Hb' & Hn) Hcases IH]; [done|]. cbn [for_each]. rewrite Hx, Hn. cbn [ensure_wf obind].
      rewrite (next_wf _ _ _ _ _ Hf Hb'). done.
    - cbn. apply tres_same; [done|]. by intros P F Hf.
    - eapply fine_bind; [by eapply operand_fine'|]. intros [v s1] (H1 & H2 & H3). cbn [fst snd] in *.
      eapply fine_bind; [eapply (panic_fine pend); [by eapply st_gcx|done|done]|]. intros [tm s2] (J1 & J2 & J3). cbn [fst snd] in *.
      set (v' := if e then v else b_not v). assert (Hv' : vok s1 TBool v') by (unfold v'; destruct e; [done|by apply not_vok]). clearbody v'.
      destruct (new_block_fine pend s2 (mkBlock [] tm (block_kind c)) J1) as (K1 & K2 & K3).
      { intros s' Hg P F Hf _. split; [constructor|]. cbn [bb_kind bb_terminator]. apply J3. by eapply final_grow. }
      unfold new_block in K1, K2, K3. pose proof (fresh_none _ (st_iv _ _ J1)) as Hfr.
      destruct (fresh_bb s2) as [n s3] eqn:E. cbn [fst snd] in *. unfold fresh_bb in E. injection E as <- Es.
      eapply add_block_fine; [by subst s3|]. eapply bb_fine; [by apply st_iv in K1|done|]. unfold b_bool_to_int. rewrite bool_decide_eq_true_2 by done. cbn [obind].
      cbn. split_and!; cbn [fst snd]; [done|eapply grow_trans; [by apply gcx_grow|]; by eapply grow_trans|constructor|].
      intros P F Hf. cbn [terminator_check_wf].
      assert (Hv2 : vok (put_block s3 (fx_next_bb s2) (mkBlock [] tm (block_kind c))) u8_ty (b_transmute v' u8_ty)).
      { apply bool_u8_vok. eapply vok_grow; [done|]. by eapply vok_grow. }
      rewrite (Hv2 P _ (fi_compat _ _ _ Hf)). cbn [obind]. unfold u8_ty, b_int_ty. cbn [for_each fst snd].
      replace (can_represent _ 1) with true by (vm_compute; reflexivity). cbn [ensure_wf obind]. rewrite (next_wf _ _ _ _ _ Hf Hb). cbn [obind].
      apply kind_wf. eexists. split; [by apply (fi_blocks _ _ _ Hf)|done].
    - eapply with_place_rty; [done..|]. eapply place_fine'; [done|apply gcx_refl|done|]. intros e He. specialize (Hcov _ _ Hp).
      eapply (fine_bind _ _ (fun x => iv (snd x) /\ gcx s (snd x) /\ vok (snd x) (TPtr PFnPtr) (fst (fst x)) /\ vok (snd x) (TPtr (PRaw MKNone)) (snd (fst x)))).
      + destruct (rc_dyn R r) as [tn|] eqn:Edyn.
        * cbn [fine fst snd]. destruct (ro_dyn _ _ HR _ _ t Edyn) as [Htn Ht]. destruct Hp as [Hrt _]. rewrite (Ht Hrt) in He.
          assert (Ha : vok s (TPtr (PRaw (MKVTablePointer tn))) (EAddrOf e (PRaw (MKVTablePointer tn)))) by (by eapply addr_vok).
          split_and!; [done|apply gcx_refl| |by eapply thin_vok]. by eapply method_vok.
        * pose proof (get_fn_name_ok R [] (fx_cx s) f (iv_cx _ _ _ Hi)) as Hok. pose proof (get_fn_name_ext (fx_cx s) f) as [Hx _].
          pose proof (fun P L => fn_ptr_wf R P L (fx_cx s) f) as Hfn.
          destruct (get_fn_name (fx_cx s) f) as [n c'] eqn:E. cbn [fst snd fine] in *. split_and!; [by apply set_cx_iv|by apply set_cx_gcx| |].
          -- intros P' L' [Hh _]. by apply Hfn.
          -- eapply addr_vok; [by eapply pok_gcx; [apply set_cx_gcx|]|done|done].
      + intros [[callee ptr] s'] (H1 & H2 & H3 & H4). cbn [fst snd] in *. eapply bb_fine; [done..|]. cbn. apply tres_gcx; [done..|constructor|].
        intros P F Hf. eapply call_wf; [done|done|apply unit_pok|apply sized_unit| |by eapply next_wf|done].
        constructor; [|constructor]. eapply byval; [done|apply sized_ptr].
    - cbn. apply tres_same; [done|]. intros P F Hf. by subst c.
    - done.
  Qed.

  (** ** Blocks *)
  Lemma promised_app F p q : promised F (p ++ q) <-> promised F p /\ promised F q.
  Proof. apply Forall_app. Qed.

  Definition has_block (s : Fcx) (n : BbName) (k : BbKind) : Prop := exists b, map_get (fx_blocks s) n = Some b /\ bb_kind b = k.
  (** a statement list; [cur] is the block under construction, with the statements [acc] so far *)
  Definition bres (X : list BbName) (name : BbName) (s : Fcx) (k : BbKind) (r : BbName * list Statement * Fcx) : Prop :=
    let '(cur, acc, s') := r in
    st [(cur, k)] s' /\ grow X s s' /\ Forall (sgood s') acc /\ map_get (fx_blocks s') cur = None /\ (cur < fx_next_bb s')%N /\
    (cur ∈ X \/ (fx_next_bb s <= cur)%N) /\ (cur = name \/ has_block s' name k).
  Lemma stmts_fine X name s0 s k sts cur acc : st [(cur, k)] s -> grow X s0 s -> Forall (sgood s) acc -> map_get (fx_blocks s) cur = None -> (cur < fx_next_bb s)%N ->
    (cur ∈ X \/ (fx_next_bb s0 <= cur)%N) -> cur = name \/ has_block s name k -> Forall (stmt_ok T R B) sts ->
    fine (translate_stmts fuel R T s k sts cur acc) (bres X name s0 k).
  Proof.
    intros Hs Hg Hacc Hcur Hlt HX Hn Hsts. revert s cur acc Hs Hg Hacc Hcur Hlt HX Hn. induction Hsts as [|x sts Hx Hsts IH]; intros s cur acc Hs Hg Hacc Hcur Hlt HX Hn.
    - cbn. split_and!; done.
    - cbn [translate_stmts]. eapply fine_bind; [by eapply stmt_fine; [apply st_iv in Hs|]|]. intros [r s1] (H1 & H2 & H3). cbn [fst snd] in *.
      pose proof (gcx_grow X _ _ H2) as G1. pose proof (st_gcx _ _ _ Hs H2 H1) as S1. pose proof (gcx_blocks _ _ H2) as B1.
      destruct r as [y|op d args].
      + apply IH; [done|by eapply grow_trans| |by rewrite B1| |done|].
        * apply Forall_app. split; [|by constructor]. eapply Forall_impl; [done|]. intros. by eapply sgood_grow.
        * pose proof (gr_nb _ _ _ G1). lia.
        * destruct Hn as [Hn|(y' & Hn & Hk)]; [by left|right]. exists y'. by rewrite B1.
      + destruct H3 as ((t & Hd & Hz) & Hargs & Hop). apply fresh_step; [done|]. intros s2 I2 G2 N2 B2 L2.
        assert (Hc2 : map_get (fx_blocks s2) cur = None) by (by rewrite B2, B1).
        assert (Hlt1 : (cur < fx_next_bb s1)%N) by (pose proof (gr_nb _ _ _ G1); lia).
        eapply add_block_fine; [done|].
        set (b := mkBlock acc (TmIntrinsic op args d (Some (fx_next_bb s1))) k). set (s3 := put_block s2 cur b).
        assert (G3 : grow X s0 s3).
        { apply put_block_grow; [|destruct HX as [HX|HX]; [by right|left; lia]|done]. eapply grow_trans; [done|]. eapply grow_trans; [done|]. eapply grow_weak; [|done]. set_solver. }
        assert (G23 : grow [cur] s2 s3) by (apply put_block_grow; [apply grow_refl|right; left|done]).
        assert (G13 : grow [cur] s1 s3) by (eapply grow_trans; [|done]; eapply grow_weak; [|done]; set_solver).
        apply IH; try done.
        * split; [apply put_block_iv; [done|lia]|pose proof (st_n0 _ _ S1); cbn; lia|]. intros m z Hin. apply put_block_in in Hin; [|done].
          intros P F Hf Hp. assert (Hk : has_kind F cur k).
          { eexists. split; [apply (fi_blocks _ _ _ Hf); unfold s3; by rewrite put_block_get, bool_decide_eq_true_2|done]. }
          destruct Hin as [Hin|[-> ->]].
          -- eapply (st_good _ _ S1 m z); [by rewrite <-B2|by eapply final_grow|]. by constructor.
          -- split; cbn [b bb_statements bb_terminator bb_kind].
             ++ eapply Forall_impl; [done|]. intros y Hy. apply Hy. eapply final_grow; [done|]. by eapply final_grow.
             ++ assert (Hf1 : final P F s1) by (by eapply final_grow).
                eapply (intrinsic_wf _ _ s1); [done..|by destruct op|]. apply kind_wf. by apply Forall_inv in Hp.
        * unfold s3. rewrite put_block_get. rewrite bool_decide_eq_false_2 by lia. rewrite B2. by apply fresh_none.
        * cbn. lia.
        * right. pose proof (gr_nb _ _ _ Hg). pose proof (gr_nb _ _ _ G1). lia.
        * right. unfold has_block, s3. rewrite put_block_get, B2, B1. destruct (decide (cur = name)) as [->|Hne].
          -- rewrite bool_decide_eq_true_2 by done. by eexists.
          -- rewrite bool_decide_eq_false_2 by done. by destruct Hn as [Hn|Hn].
  Qed.

  Lemma bb_ok s i b : st [] s -> ro_blocks B !! i = Some b -> Forall (stmt_ok T R B) (rb_stmts b) -> term_ok T R B (rb_cleanup b) (rb_term b) ->
    covered_term T R B (rb_cleanup b) (rb_term b) -> map_get (fx_blocks s) (N.of_nat i) = None ->
    fine (translate_bb fuel R T s (N.of_nat i) b) (fun s' => st [] s' /\ grow [N.of_nat i] s s' /\ has_block s' (N.of_nat i) (block_kind (rb_cleanup b))).
  Proof.
    intros Hs Hb Hsts Htm Hcov Hnone. unfold translate_bb. set (name := N.of_nat i). set (k := block_kind (rb_cleanup b)).
    assert (Hlt : (name < fx_next_bb s)%N).
    { pose proof (iv_nb _ _ _ (st_iv _ _ Hs)) as Hnb. apply lookup_lt_Some in Hb. unfold name. lia. }
    eapply fine_bind; [eapply (stmts_fine [name] name s s); [|apply grow_refl|constructor|done|done|left; left|by left|done]|].
    { split; [by apply st_iv in Hs|by apply st_n0 in Hs|]. intros m x Hin P F Hf _. apply (st_good _ _ Hs m x Hin); [done|constructor]. }
    intros [[cur acc] s1] (S1 & G1 & A1 & C1 & L1 & X1 & N1).
    eapply fine_bind; [by eapply term_fine|]. intros [[sts tm] s2] (S2 & G2 & A2 & T2). cbn [fst snd] in *.
    assert (C2 : map_get (fx_blocks s2) cur = None).
    { apply (gr_fresh _ _ _ G2); [done|set_solver|done]. }
    set (x := mkBlock (acc ++ sts) tm k).
    replace (add_block s2 cur x) with (Ret (put_block s2 cur x)) by (unfold add_block, try_insert, map_contains; by rewrite C2).
    cbn [fine]. pose proof (gr_nb _ _ _ G2) as Hnb.
    assert (G3 : grow [cur] s2 (put_block s2 cur x)) by (apply put_block_grow; [apply grow_refl|right; left|done]).
    split_and!.
    - split; [apply put_block_iv; [by apply st_iv in S2|lia]|by apply st_n0 in S2|]. intros m z Hin P F Hf _. apply put_block_in in Hin; [|done].
      assert (Hk : has_kind F cur k).
      { eexists. split; [apply (fi_blocks _ _ _ Hf); by rewrite put_block_get, bool_decide_eq_true_2|done]. }
      assert (Hf2 : final P F s2) by (by eapply final_grow).
      destruct Hin as [Hin|[-> ->]]; [apply (st_good _ _ S2 m z Hin); [done|by constructor]|].
      split; cbn [x bb_statements bb_terminator bb_kind]; [|by apply T2]. apply Forall_app. split.
      + eapply Forall_impl; [exact A1|]. intros y Hy. apply Hy. by eapply final_grow.
      + eapply Forall_impl; [exact A2|]. intros y Hy. by apply Hy.
    - apply put_block_grow; [|destruct X1 as [X1|X1]; [by right|by left]|done]. eapply grow_trans; [done|]. eapply grow_weak; [|done]. set_solver.
    - unfold has_block. rewrite put_block_get. destruct (decide (cur = name)) as [->|Hne].
      + rewrite bool_decide_eq_true_2 by done. by eexists.
      + rewrite bool_decide_eq_false_2 by done. destruct N1 as [N1|(y & N1 & Hk)]; [done|]. exists y. split; [by apply (gr_blocks _ _ _ G2)|done].
  Qed.
End Term.
