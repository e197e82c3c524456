(** C95: the program builder puts together exactly what was declared. *)
From Verif Require Export SessionSpec PropsBuild.
From Verif Require Import SessionProofs BuildProofs BuildWf BaseProofs ExBuild.
Local Open Scope Z_scope.

(** C95, calls. All calls of a session succeed exactly if each of them is made on a builder that is there, and may be made
    then. *)
Theorem C95_accepts T cs : (exists s, session T cs = Ret s) <-> forall a c b, cs = a ++ c :: b -> handles a c /\ allowed T a c.
Proof.
  pose proof (calls_inv T cs [] _ (new_inv T)) as H. unfold session. destruct (pb_calls T _ cs) as [s| | |]; try done.
  - split; [|by exists s]. intros _. apply H.
  - split; [by intros [? ?]|]. intros Hf. destruct H as (a & c & b & E & _ & _ & Hn). by destruct (Hf a c b E).
  - split; [by intros [? ?]|]. intros Hf. destruct H as (a & c & b & E & _ & Hn). by destruct (Hf a c b E).
Qed.
Print Assumptions C95_accepts.

(** A session panics exactly if, after calls that all succeed, there is one that is made on a builder that is there but may
    not be made. *)
Theorem C95_panics T cs : session T cs = Panic <->
  exists a c b, cs = a ++ c :: b /\ (exists s, session T a = Ret s) /\ handles a c /\ ~ allowed T a c.
Proof.
  setoid_rewrite C95_accepts. pose proof (calls_inv T cs [] _ (new_inv T)) as H. unfold session. split.
  - intros E. rewrite E in H. exact H.
  - intros (a & c & b & -> & Hf & Hh & Hn). destruct (pb_calls T _ (a ++ c :: b)) as [s| | |]; try done.
    + destruct H as [H _]. by destruct (H a c b eq_refl).
    + destruct H as (a' & c' & b' & E & Hf' & Hn'). exfalso. apply app_eq_inv in E as [(k & E1 & E2)|(k & E1 & E2)].
      * destruct k as [|x k]; simplify_list_eq; [done|]. by destruct (Hf a' x k eq_refl).
      * destruct k as [|x k]; simplify_list_eq; [done|]. by destruct (Hf' a x k eq_refl).
Qed.
Print Assumptions C95_panics.

(** finish_program succeeds exactly if the start function is finished. *)
Theorem C95_start T cs start : (exists prog, session_program T cs start = Ret prog) <->
  (exists s, session T cs = Ret s) /\ exists h c, PbFnDone (N.to_nat start) h c ∈ cs.
Proof.
  split.
  - intros (prog & E). apply program_parts in E as (s & f & Es & Ef & ->). split; [by exists s|].
    apply (found_fn cs) in Ef as (h & c & ? & _); [by exists h, c|]. by eapply session_inv_of.
  - intros [[s Es] (h & c & Hin)]. pose proof (session_inv_of _ _ _ Es) as (HF & _). unfold session_program. rewrite Es. cbn [obind].
    unfold finish_program. destruct (map_get (pb_functions (se_pb s)) start) as [f|] eqn:E; [by eexists|]. exfalso.
    destruct HF as (_ & _ & H3). specialize (H3 (N.to_nat start)). rewrite N2Nat.id, E in H3. destruct (se_fns s !! _) as [[b|]|].
    + destruct H3 as (_ & _ & C). by eapply C.
    + destruct H3 as (f & h' & c' & E' & _). done.
    + destruct H3 as (_ & _ & C). by eapply C.
Qed.
Print Assumptions C95_start.

(** C95, functions. The functions of the program are those that were finished, under the number of their declaration, and
    the one to start with has the calling convention of C. *)
Theorem C95_functions T cs start prog : session_program T cs start = Ret prog ->
  pr_start prog = start /\
  forall n f, map_get (pr_functions prog) n = Some f <->
    exists h c f0, PbFnDone (N.to_nat n) h c ∈ cs /\ build_function n h c = Ret f0 /\ f = (if bool_decide (n = start) then as_start f0 else f0).
Proof.
  intros E. apply program_parts in E as (s & f0 & Es & Ef & ->). split; [done|]. intros n f. simpl.
  pose proof (session_inv_of _ _ _ Es) as (HF & _). pose proof (fun f => found_fn cs s n f HF) as Hn. rewrite insert_get. case_bool_decide as Hs.
  - subst n. rewrite bool_decide_true by done. split.
    + intros [= <-]. apply Hn in Ef as (h & c & ? & ?). by exists h, c, f0.
    + intros (h & c & f1 & Hin & Eb & ->). assert (Hf1 : map_get (pb_functions (se_pb s)) start = Some f1) by (apply Hn; by exists h, c). congruence.
  - rewrite bool_decide_false by done. rewrite Hn. split; [intros (h & c & ? & ?); by exists h, c, f|intros (h & c & ? & ? & ? & ->); by exists h, c].
Qed.
Print Assumptions C95_functions.

(** C95, globals. They are numbered in the order of their declarations, and each has the size and alignment of its type and
    is zeroed. *)
Theorem C95_globals T cs start prog : session_program T cs start = Ret prog ->
  forall n g, map_get (pr_globals prog) n = Some g <-> exists ty, globals_of cs !! N.to_nat n = Some ty /\ zeroed T ty g.
Proof.
  intros E. apply program_parts in E as (s & f0 & Es & Ef & ->). intros n g. simpl. apply found_global.
  by apply session_inv_of in Es as (_ & _ & HG & _).
Qed.
Print Assumptions C95_globals.

(** C95, traits. The traits are those that were finished, and the methods of a trait are numbered from 0. *)
Theorem C95_traits T cs start prog : session_program T cs start = Ret prog ->
  forall n ms, map_get (pr_traits prog) n = Some ms <-> PbTraitDone (N.to_nat n) ∈ cs /\ ms = upto (methods_of cs (N.to_nat n)).
Proof.
  intros E. apply program_parts in E as (s & f0 & Es & Ef & ->). intros n ms. simpl. apply trait_found.
  by apply session_inv_of in Es as (_ & HT & _).
Qed.
Print Assumptions C95_traits.

(** C95, vtables. The vtables are those that were finished, with what was declared and the functions that were added, and
    they have exactly the methods of their trait. *)
Theorem C95_vtables T cs start prog : session_program T cs start = Ret prog ->
  (forall n, is_Some (map_get (pr_vtables prog) n) <-> PbVTableDone (N.to_nat n) ∈ cs) /\
  (forall n v, map_get (pr_vtables prog) n = Some v -> vtable_is T cs (N.to_nat n) v /\
     exists ms, map_get (pr_traits prog) (vt_trait v) = Some ms /\ forall m, is_Some (map_get (vt_methods v) m) <-> m ∈ ms).
Proof.
  intros E. apply program_parts in E as (s & f0 & Es & Ef & ->). simpl. apply session_inv_of in Es as (_ & _ & _ & HV). split.
  - intros n. split.
    + intros [v Hv]. by destruct (found_vtable T cs s n v HV Hv).
    + intros Hin. destruct (found_vtable_done T cs s _ HV Hin) as (v & Hv). rewrite N2Nat.id in Hv. by exists v.
  - intros n v Hv. by destruct (found_vtable T cs s n v HV Hv) as (_ & H1 & H2).
Qed.
Print Assumptions C95_vtables.

(** C95, well-formedness. For a program from the builder what is left to check are the sizes and cells of the vtables, the
    functions, and the arguments and return type of the start function. *)
Theorem C95_wf T cs start prog : session_program T cs start = Ret prog ->
  program_check_wf T prog = Ret tt <->
  (forall n v, map_get (pr_vtables prog) n = Some v -> (vt_size v mod align_bytes (vt_align v) = 0)%N /\ check_cells (vt_cells v) (vt_size v) = Ret tt) /\
  Forall (fun f => function_check_wf T prog (snd f) = Ret tt) (pr_functions prog) /\
  exists f ty, map_get (pr_functions prog) start = Some f /\ fn_args f = [] /\ map_get (fn_locals f) (fn_ret f) = Some ty /\ layout T ty = Ret (LSized 0 align_one).
Proof.
  intros E. pose proof (C95_vtables T cs start prog E) as [_ HV]. pose proof (C95_globals T cs start prog E) as HG.
  apply program_parts in E as (s & f0 & Es & Ef & Ep). pose proof (session_once _ _ _ Es) as [Ov Og].
  assert (EV : pr_vtables prog = pb_vtables (se_pb s)) by by subst prog. assert (EG : pr_globals prog = pb_globals (se_pb s)) by by subst prog.
  rewrite <- EV in Ov. rewrite <- EG in Og. assert (Est : pr_start prog = start) by by subst prog.
  assert (Efs : map_get (pr_functions prog) start = Some (as_start f0)).
  { subst prog. simpl. by rewrite insert_get, bool_decide_true. }
  assert (V : for_each (fun v => vtable_check_wf prog (snd v)) (pr_vtables prog) = Ret tt <->
    forall n v, map_get (pr_vtables prog) n = Some v -> (vt_size v mod align_bytes (vt_align v) = 0)%N /\ check_cells (vt_cells v) (vt_size v) = Ret tt).
  { rewrite for_each_ret, Forall_forall. split.
    - intros H n v Hv. apply map_get_in in Hv as Hin. specialize (H (n, v)). simpl in H.
      assert (Hc : vtable_check_wf prog v = Ret tt) by (apply H; first [done|by apply elem_of_list_In]). unfold vtable_check_wf in Hc.
      apply obind_ret in Hc as ([] & H1%ensure_ret & Hc). apply obind_ret in Hc as ([] & H2 & _). apply N.eqb_eq in H1. done.
    - intros H [n v] Hin. simpl. assert (Hv : map_get (pr_vtables prog) n = Some v). { apply once_get; [done|]. first [done|by apply elem_of_list_In]. }
      destruct (H n v Hv) as [H1 H2]. destruct (HV n v Hv) as (_ & ms & Hm & Hs). unfold vtable_check_wf. rewrite H1, N.eqb_refl. cbn [ensure_wf obind].
      rewrite H2. cbn [obind]. rewrite Hm. apply ensure_ret. apply same_set. intros m. rewrite keys_in. symmetry. apply Hs. }
  assert (G : for_each (fun g => for_each (fun r => let! _ := ensure_wf (fst r + PTR_SIZE T <=? N.of_nat (length (g_bytes (snd g))))%N
                        "Program: invalid global pointer value" in reloc_check_wf prog (snd r)) (g_relocations (snd g))) (pr_globals prog) = Ret tt).
  { rewrite for_each_ret, Forall_forall. intros [n g] Hin. simpl.
    assert (Hg : map_get (pr_globals prog) n = Some g). { apply once_get; [done|]. first [done|by apply elem_of_list_In]. }
    apply HG in Hg as (ty & _ & z & a & _ & _ & _ & -> & _). done. }
  unfold program_check_wf. rewrite Est, Efs. split.
  - intros H. apply obind_ret in H as ([] & H1 & H). pose proof (proj1 V H1) as H1'. clear H1. rename H1' into H1. apply obind_ret in H as ([] & H2 & H). apply for_each_ret in H2.
    split; [done|]. split; [done|]. cbn [obind ensure_wf] in H. apply obind_ret in H as ([] & _ & H). apply obind_ret in H as (ty & Hty & H).
    apply unwrap_ret in Hty. apply obind_ret in H as (l & Hl & H). apply obind_ret in H as ([] & Hl'%ensure_ret & H). apply bool_decide_eq_true in Hl'. subst l.
    apply obind_ret in H as ([] & Ha%ensure_ret & _). exists (as_start f0), ty. split; [done|]. split; [|done]. by destruct (fn_args (as_start f0)).
  - intros (H1 & H2 & f & ty & Hf & Ha & Hty & Hl). injection Hf as <-. rewrite (proj2 V H1). cbn [obind].
    rewrite (proj2 (for_each_ret _ _) H2). cbn [obind]. rewrite bool_decide_true by done. cbn [ensure_wf obind]. rewrite Hty. cbn [unwrap obind].
    rewrite Hl. cbn [obind]. rewrite bool_decide_true by done. cbn [ensure_wf obind]. rewrite Ha. cbn [ensure_wf obind]. exact G.
Qed.
Print Assumptions C95_wf.

(** A program with two functions, the second of which is finished first, two globals, a trait with two methods, and a
    vtable for which the first method is given twice. If the vtable is finished before the trait, or the method is missing,
    the builder panics. *)
Definition ss_calls : list PbCall :=
  [PbFn; PbGlobal (TInt u32_t); PbFn; PbTrait; PbMethod 0; PbVTableFor 0 (TInt u32_t); PbMethod 0; PbTraitDone 0; PbImpl 0 1 1; PbImpl 0 0 0; PbImpl 0 0 1;
   PbFnDone 1 bd_thrower_header bd_thrower_body; PbVTableDone 0; PbGlobal (TInt u8_t); PbFnDone 0 (mkHeader [] None CcRust) bd_main_body].
Definition ss_dummy : Program := mkProgram [] 0 [] [] [].
Definition ss_prog : Program := Eval vm_compute in out ss_dummy (session_program x86_64 ss_calls 0).
Example C95_hyps : session_program x86_64 ss_calls 0 = Ret ss_prog /\ program_check_wf x86_64 ss_prog = Ret tt /\
  session x86_64 [PbTrait; PbVTable 0 4 align_one []; PbVTableDone 0] = Panic /\
  session x86_64 [PbTrait; PbMethod 0; PbTraitDone 0; PbVTable 0 4 align_one []; PbVTableDone 0] = Panic /\
  session x86_64 [PbTrait; PbTraitDone 0; PbMethod 0] = NoBehavior /\ session_program x86_64 ss_calls 2 = Panic /\
  (exists f, map_get (pr_functions ss_prog) 0%N = Some f /\ fn_conv f = CcC) /\
  map_get (pr_traits ss_prog) 0%N = Some [0; 1]%N /\ (exists v, map_get (pr_vtables ss_prog) 0%N = Some v /\ map_get (vt_methods v) 0%N = Some 1%N) /\
  (exists g, map_get (pr_globals ss_prog) 1%N = Some g /\ g_bytes g = [Some Byte.x00]).
Proof.
  split; [by vm_compute|]. split; [by vm_compute|]. split; [by vm_compute|]. split; [by vm_compute|]. split; [by vm_compute|]. split; [by vm_compute|].
  split; [eexists; by vm_compute|]. split; [by vm_compute|]. split; [eexists; by vm_compute|eexists; by vm_compute].
Qed.
