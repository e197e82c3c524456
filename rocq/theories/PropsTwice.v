(** C96: expressions that only read can be evaluated again, and in any order. *)
From Verif Require Export TwiceSpec.
From Verif Require Import XSim TreeDrop ReadExpr ReadTwice ExSim PropsDrop.
Local Open Scope Z_scope.

(** the generic lemmas for the two memory models *)
Ltac tree_facts T := solve [apply (load_again T)|apply (loads_swap T)|apply (loads_both T)|apply (tree_load_deref T)|apply (tree_load_ub T)|apply (tree_raw T)|done].
Ltac basic_facts T := solve [apply (basic_load_again T)|apply (basic_loads_swap T)|apply (basic_loads_both T)|apply (basic_load_deref T)|apply (basic_load_ub T)|apply (basic_raw T)|done].

(** C96 for the memory: a load that succeeded can be done again after any other loads. It gives the same
    bytes and leaves the memory, with its trees, exactly as it is. *)
Theorem C96_load T m ptr len al b m1 n :
  mo_load (TreeOps T) m ptr len al = Ret (b, m1) -> loaded (TreeOps T) m1 n ->
  mo_load (TreeOps T) n ptr len al = Ret (b, n).
Proof. intros H L. eapply (later_again (TreeOps T)); try done; tree_facts T. Qed.
Print Assumptions C96_load.

Lemma tree_between T m n : read_between T (TreeOps T) m n -> mr (loaded (TreeOps T)) anyacc m n.
Proof.
  induction 1 as [m|m e v m1 n He E H IH]; [apply ml_refl|]. eapply ml_trans; [|exact IH].
  eapply (eval_later T (TreeOps T)); try done; tree_facts T.
Qed.
Lemma basic_between T m n : read_between T (BasicOps T) m n -> mr (loaded (BasicOps T)) anyacc m n.
Proof.
  induction 1 as [m|m e v m1 n He E H IH]; [apply ml_refl|]. eapply ml_trans; [|exact IH].
  eapply (eval_later T (BasicOps T)); try done; basic_facts T.
Qed.

(** C96: an expression that makes no references, evaluated again after any number of such expressions, has
    the same value, and the second evaluation changes nothing. *)
Theorem C96_again T e m v m1 n : only_reads e = true ->
  eval_value T (TreeOps T) e m = Ret (v, m1) -> read_between T (TreeOps T) m1 n ->
  exists n', eval_value T (TreeOps T) e n = Ret (v, n') /\ same_state n n'.
Proof.
  intros He E H%tree_between. destruct (eval_again T (TreeOps T) (load_again T) (loads_both T) (tree_load_deref T) (tree_load_ub T) (tree_raw T)
      _ _ _ _ _ He E H) as (n' & Hn & Hs). exists n'. split; [done|]. by apply me_same.
Qed.
Print Assumptions C96_again.

(** C96: two such expressions have the same values and lead to the same state in both orders, and one order
    works exactly if the other does. *)
Theorem C96_order T e1 e2 m v1 v2 m' : only_reads e1 = true -> only_reads e2 = true ->
  (exists m1 m12, eval_value T (TreeOps T) e1 m = Ret (v1, m1) /\ eval_value T (TreeOps T) e2 m1 = Ret (v2, m12) /\ same_state m12 m') <->
  (exists m2 m21, eval_value T (TreeOps T) e2 m = Ret (v2, m2) /\ eval_value T (TreeOps T) e1 m2 = Ret (v1, m21) /\ same_state m21 m').
Proof.
  intros R1 R2. split; intros (x & y & E1 & E2 & Hs).
  - destruct (eval_order T (TreeOps T) (load_again T) (loads_swap T) (loads_both T) (tree_load_deref T) (tree_load_ub T) (tree_raw T)
      _ _ _ _ _ _ _ R1 R2 E1 E2) as (m2 & m21 & F1 & F2 & K). exists m2, m21. split; [done|]. split; [done|].
    apply me_same in Hs. apply me_same. eapply me_trans; [by apply me_sym|done].
  - destruct (eval_order T (TreeOps T) (load_again T) (loads_swap T) (loads_both T) (tree_load_deref T) (tree_load_ub T) (tree_raw T)
      _ _ _ _ _ _ _ R2 R1 E1 E2) as (m2 & m21 & F1 & F2 & K). exists m2, m21. split; [done|]. split; [done|].
    apply me_same in Hs. apply me_same. eapply me_trans; [by apply me_sym|done].
Qed.
Print Assumptions C96_order.

(** C96: such an expression has the same value before and after any others were evaluated. *)
Theorem C96_between T e m n v : only_reads e = true -> read_between T (TreeOps T) m n ->
  (exists m1, eval_value T (TreeOps T) e m = Ret (v, m1)) <-> (exists n1, eval_value T (TreeOps T) e n = Ret (v, n1)).
Proof.
  intros He H%tree_between. split; intros (x & E).
  - destruct (fwd T (TreeOps T) (loads_both T) (tree_load_deref T) (tree_load_ub T) (tree_raw T)
      _ _ _ _ _ He H E) as (y & Hy & _). eauto.
  - destruct (bwd T (TreeOps T) (loads_swap T) (tree_load_deref T) (tree_load_ub T) (tree_raw T)
      _ _ _ _ _ He H E) as (y & Hy & _). eauto.
Qed.
Print Assumptions C96_between.

(** C96 with the basic memory. *)
Theorem C96_basic T e m v m1 n : only_reads e = true ->
  eval_value T (BasicOps T) e m = Ret (v, m1) -> read_between T (BasicOps T) m1 n ->
  exists n', eval_value T (BasicOps T) e n = Ret (v, n') /\ same_state n n'.
Proof.
  intros He E H%basic_between. destruct (eval_again T (BasicOps T) (basic_load_again T) (basic_loads_both T) (basic_load_deref T) (basic_load_ub T) (basic_raw T)
      _ _ _ _ _ He E H) as (n' & Hn & Hs). exists n'. split; [done|]. by apply me_same.
Qed.
Print Assumptions C96_basic.

(** reading the local, then through the mutable reference to it, in a state in which the reference has been
    written: the first read changes the trees, and so it is not the same state as before *)
Example C96_hyps : exists m v1 m1 v2 m12,
  reachable x86_64 (TreeOps x86_64) dr_prog m /\ only_reads (ELoad (PLocal 1)) = true /\ only_reads (ELoad (PDeref (ELoad (PLocal 2)) (TInt u32_t))) = true /\
  eval_value x86_64 (TreeOps x86_64) (ELoad (PLocal 1)) m = Ret (v1, m1) /\
  eval_value x86_64 (TreeOps x86_64) (ELoad (PDeref (ELoad (PLocal 2)) (TInt u32_t))) m1 = Ret (v2, m12) /\
  v1 = (VInt 6, TInt u32_t) /\ v2 = v1 /\ ~ same_state m m1 /\ read_between x86_64 (TreeOps x86_64) m1 m12.
Proof.
  exists dr_t. eexists. eexists. eexists. eexists. split; [exact dr_reach|]. split; [done|]. split; [done|]. split; [vm_compute; reflexivity|].
  split; [vm_compute; reflexivity|]. split; [done|]. split; [done|]. split.
  - intros (c & Hc & Hm). apply (f_equal m_mem) in Hc. cbn in Hc. subst c. vm_compute in Hm. congruence.
  - eapply (read_expr _ _ _ (ELoad (PDeref (ELoad (PLocal 2)) (TInt u32_t)))); [done|vm_compute; reflexivity|constructor].
Qed.
