(** Proofs about the driver of minimize. *)
From Coq Require Import Ascii String.
From Verif Require Export MinimizeSpec.
From Verif Require Import RunProofs.

Lemma begins_some p a : begins p a <-> exists r, Run.strip_prefix p a = Some r.
Proof. split; intros (r & H); exists r; by apply strip_prefix_some. Qed.
Lemma is_dump_arg a : is_dump a <-> exists k, a = dump_arg k.
Proof. done. Qed.
Lemma dump_minimize k : Run.strip_prefix "--minimize-" (dump_arg k) = Some ("dump=" ++ k)%string.
Proof. by apply strip_prefix_some. Qed.
Lemma dump_arg_inj k k' : dump_arg k = dump_arg k' -> k = k'.
Proof. unfold dump_arg. cbn. by intros [= ->]. Qed.
Lemma not_both a : for_minimize a -> for_machine a -> False.
Proof. intros (r & ->) (r' & E). discriminate E. Qed.

(** the next argument *)
Variant kind_of : string -> Prop :=
| ko_dump k : kind_of (dump_arg k)
| ko_roundtrip : kind_of roundtrip_arg
| ko_unknown a : for_minimize a -> ~ is_dump a -> a <> roundtrip_arg -> kind_of a
| ko_tree : kind_of tree_borrows_arg
| ko_bad a : for_machine a -> a <> tree_borrows_arg -> kind_of a
| ko_rustc a : ~ for_minimize a -> ~ for_machine a -> kind_of a.

Lemma parse_next cf acc a args :
  (exists k, a = dump_arg k /\ parse_from cf acc (a :: args) =
     match mc_dump cf with
     | Some _ => Fatal "Argument --minimize-dump was given twice!"
     | None => parse_from (mkMinimize (Some k) (mc_roundtrip cf) (mc_machine cf)) acc args
     end) \/
  (a = roundtrip_arg /\ parse_from cf acc (a :: args) = parse_from (mkMinimize (mc_dump cf) true (mc_machine cf)) acc args) \/
  (for_minimize a /\ ~ is_dump a /\ a <> roundtrip_arg /\ exists msg, parse_from cf acc (a :: args) = Fatal msg) \/
  (a = tree_borrows_arg /\ parse_from cf acc (a :: args) = parse_from (mkMinimize (mc_dump cf) (mc_roundtrip cf) (mkConfig true)) acc args) \/
  (for_machine a /\ a <> tree_borrows_arg /\ exists msg, parse_from cf acc (a :: args) = Fatal msg) \/
  (~ for_minimize a /\ ~ for_machine a /\ parse_from cf acc (a :: args) = parse_from cf (acc ++ [a]) args).
Proof.
  cbn [parse_from]. destruct (Run.strip_prefix "--minimize-" a) as [r|] eqn:E.
  - pose proof (proj1 (strip_prefix_some _ _ _) E) as ->. destruct (Run.strip_prefix "dump=" r) as [k|] eqn:E2.
    + apply strip_prefix_some in E2 as ->. left. exists k. by split.
    + destruct (String.eqb_spec r "check-json-roundtrip") as [->|Hr]; [right; left; by split|]. right; right; left.
      split; [by exists r|]. split; [|split; [|by eexists]].
      * intros (k & Hk). assert (r = ("dump=" ++ k)%string) as ->.
        { cbn in Hk |- *. congruence. }
        assert (Run.strip_prefix "dump=" ("dump=" ++ k) = Some k) by (by apply strip_prefix_some). congruence.
      * unfold roundtrip_arg. cbn. congruence.
  - assert (~ for_minimize a) as Hn by (intros (r & Hr%strip_prefix_some); congruence).
    destruct (consume_cases (mc_machine cf) a) as [(Hm & ->)|[(-> & ->)|(Hf & Hm & msg & ->)]].
    + do 5 right. destruct cf. done.
    + do 3 right. left. done.
    + do 4 right. left. eauto.
Qed.

(** a dump is asked for at most once, also counting an earlier one *)
Definition once (d : option string) (args : list string) : Prop :=
  (forall l1 a l2 b l3, args = l1 ++ a :: l2 ++ b :: l3 -> is_dump a -> ~ is_dump b) /\ (d <> None -> forall a, a ∈ args -> ~ is_dump a).
Lemma once_other d a args : ~ is_dump a -> once d (a :: args) <-> once d args.
Proof.
  intros Ha. split; intros [H1 H2]; split.
  - intros l1 b l2 c l3 ->. apply (H1 (a :: l1) b l2 c l3). done.
  - intros Hd b Hb. apply H2; [done|]. by right.
  - intros [|x l1] b l2 c l3 E Hb; [injection E as -> ->; done|]. injection E as -> ->. by eapply H1.
  - intros Hd b Hb. apply elem_of_cons in Hb as [->|Hb]; [done|]. by apply H2.
Qed.
Lemma once_dump' d x k args : is_dump x -> once d (x :: args) <-> d = None /\ once (Some k) args.
Proof.
  intros Hk. split.
  - intros [H1 H2]. split; [destruct d; [|done]; exfalso; by eapply H2; [|left|exact Hk]|]. split.
    + intros l1 b l2 c l3 ->. apply (H1 (x :: l1) b l2 c l3). done.
    + intros _ b Hb Hd. apply elem_of_list_split in Hb as (l2 & l3 & ->). by eapply (H1 [] x l2 b l3).
  - intros [-> [H1 H2]]. split; [|done]. intros [|y l1] b l2 c l3 E Hb.
    + injection E as <- ->. apply H2; [done|]. apply elem_of_app. right. left.
    + injection E as -> ->. by eapply H1.
Qed.
Lemma once_dump d k args : once d (dump_arg k :: args) <-> d = None /\ once (Some k) args.
Proof. apply once_dump'. by exists k. Qed.
Lemma not_dump_roundtrip : ~ is_dump roundtrip_arg.
Proof. intros (k & E). discriminate E. Qed.
Lemma not_dump_tree : ~ is_dump tree_borrows_arg.
Proof. intros (k & E). discriminate E. Qed.
Lemma dump_for_minimize a : is_dump a -> for_minimize a.
Proof. intros (k & ->). exists ("dump=" ++ k)%string. done. Qed.

Definition known (args : list string) : Prop :=
  Forall (fun a => for_minimize a -> is_dump a \/ a = roundtrip_arg) args /\ Forall (fun a => for_machine a -> a = tree_borrows_arg) args.
Lemma parse_from_spec args : forall cf acc,
  match parse_from cf acc args with
  | Returns (cf', rest) =>
      known args /\ once (mc_dump cf) args /\ (exists r, passed args r /\ rest = acc ++ r) /\
      (forall k, mc_dump cf' = Some k <-> mc_dump cf = Some k \/ dump_arg k ∈ args) /\
      (mc_roundtrip cf' = true <-> mc_roundtrip cf = true \/ roundtrip_arg ∈ args) /\
      (cf_tree_borrows (mc_machine cf') = true <-> cf_tree_borrows (mc_machine cf) = true \/ tree_borrows_arg ∈ args)
  | Fatal _ => ~ (known args /\ once (mc_dump cf) args)
  end.
Proof.
  induction args as [|a args IH]; intros cf acc.
  - cbn. split; [by split|]. split; [split; [by intros [|? ?]|]|].
    { intros _ a Ha. by apply elem_of_nil in Ha. }
    split; [exists []; split; [constructor|by rewrite app_nil_r]|]. split; [intros k|split]; rewrite elem_of_nil; tauto.
  - destruct (parse_next cf acc a args) as [(k & -> & ->)|[(-> & ->)|[(Hf & Hd & Hr & msg & ->)|[(-> & ->)|[(Hf & Hm & msg & ->)|(Hn & Hm & ->)]]]]].
    + destruct (mc_dump cf) as [k0|] eqn:Ed.
      { intros [_ [H _]%once_dump]. done. }
      specialize (IH (mkMinimize (Some k) (mc_roundtrip cf) (mc_machine cf)) acc).
      destruct (parse_from _ acc args) as [[cf' rest]|msg]; cbn [mc_dump mc_roundtrip mc_machine] in *.
      * destruct IH as ((K1 & K2) & O & (r & Hp & ->) & D & R & M). split; [|split; [|split; [|split; [|split]]]].
        -- split; constructor; try done; [by left; exists k|]. intros Hm. exfalso. eapply not_both; [|done]. by eexists.
        -- apply once_dump. done.
        -- exists r. split; [|done]. constructor; [|done]. left. by eexists.
        -- intros k'. rewrite D, elem_of_cons. split.
           ++ intros [[= ->]|H]; auto.
           ++ intros [H|[H|H]]; [done| |auto]. apply dump_arg_inj in H as ->. auto.
        -- rewrite R, elem_of_cons. split; [tauto|]. intros [H|[H|H]]; [auto| |auto]. discriminate H.
        -- rewrite M, elem_of_cons. split; [tauto|]. intros [H|[H|H]]; [auto| |auto]. discriminate H.
      * intros [(K1 & K2) [_ O]%once_dump]. apply IH. split; [|done]. inversion K1; inversion K2; subst. by split.
    + specialize (IH (mkMinimize (mc_dump cf) true (mc_machine cf)) acc).
      destruct (parse_from _ acc args) as [[cf' rest]|msg]; cbn [mc_dump mc_roundtrip mc_machine] in *.
      * destruct IH as ((K1 & K2) & O & (r & Hp & ->) & D & R & M). split; [|split; [|split; [|split; [|split]]]].
        -- split; constructor; try done; [by right|]. intros (r' & E). discriminate E.
        -- apply once_other; [apply not_dump_roundtrip|done].
        -- exists r. split; [|done]. constructor; [|done]. left. by exists "check-json-roundtrip"%string.
        -- intros k'. rewrite D, elem_of_cons. split; [tauto|]. intros [H|[H|H]]; [auto|discriminate H|auto].
        -- rewrite R, elem_of_cons. tauto.
        -- rewrite M, elem_of_cons. split; [tauto|]. intros [H|[H|H]]; [auto| |auto]. discriminate H.
      * intros [(K1 & K2) O]. apply (proj1 (once_other _ _ _ not_dump_roundtrip)) in O. apply IH. split; [|done]. inversion K1; inversion K2; subst. by split.
    + intros [(K1 & _) _]. inversion K1 as [|? ? K]; subst. by destruct (K Hf).
    + specialize (IH (mkMinimize (mc_dump cf) (mc_roundtrip cf) (mkConfig true)) acc).
      destruct (parse_from _ acc args) as [[cf' rest]|msg]; cbn [mc_dump mc_roundtrip mc_machine cf_tree_borrows] in *.
      * destruct IH as ((K1 & K2) & O & (r & Hp & ->) & D & R & M). split; [|split; [|split; [|split; [|split]]]].
        -- split; constructor; try done. intros (r' & E). discriminate E.
        -- apply once_other; [apply not_dump_tree|done].
        -- exists r. split; [|done]. constructor; [|done]. right. by exists "tree-borrows"%string.
        -- intros k'. rewrite D, elem_of_cons. split; [tauto|]. intros [H|[H|H]]; [auto|discriminate H|auto].
        -- rewrite R, elem_of_cons. split; [tauto|]. intros [H|[H|H]]; [auto|discriminate H|auto].
        -- rewrite M, elem_of_cons. tauto.
      * intros [(K1 & K2) O]. apply (proj1 (once_other _ _ _ not_dump_tree)) in O. apply IH. split; [|done]. inversion K1; inversion K2; subst. by split.
    + intros [(_ & K2) _]. inversion K2 as [|? ? K]; subst. by apply Hm, K.
    + assert (~ is_dump a) as Hd by (intros H; by apply Hn, dump_for_minimize).
      specialize (IH cf (acc ++ [a])). destruct (parse_from _ _ args) as [[cf' rest]|msg].
      * destruct IH as ((K1 & K2) & O & (r & Hp & ->) & D & R & M). split; [|split; [|split; [|split; [|split]]]].
        -- split; constructor; done.
        -- by apply once_other.
        -- exists (a :: r). split; [by constructor|]. by rewrite <-app_assoc.
        -- intros k'. rewrite D, elem_of_cons. split; [tauto|]. intros [H|[<-|H]]; [auto| |auto]. destruct Hd. by exists k'.
        -- rewrite R, elem_of_cons. split; [tauto|]. intros [H|[<-|H]]; [auto| |auto]. destruct Hn. by exists "check-json-roundtrip"%string.
        -- rewrite M, elem_of_cons. split; [tauto|]. intros [H|[<-|H]]; [auto| |auto]. destruct Hm. by exists "tree-borrows"%string.
      * intros [(K1 & K2) O]. apply (proj1 (once_other _ _ _ Hd)) in O. apply IH. split; [|done]. inversion K1; inversion K2; subst. by split.
Qed.
Lemma passed_fun l r r' : passed l r -> passed l r' -> r = r'.
Proof.
  intros H. revert r'. induction H as [|a l r Ha H IH|a l r H1 H2 H IH]; intros r' H'; inversion H'; subst; try done; try (f_equal; by auto); try (by auto).
  - by destruct Ha.
  - match goal with K : for_minimize a \/ for_machine a |- _ => by destruct K end.
Qed.
Lemma ok_known args : arguments_ok args <-> known args /\ once None args.
Proof.
  split.
  - intros [H1 H2 H3]. split; [split; apply Forall_forall; eauto|]. split; [done|]. by intros ?.
  - intros [[H1 H2] [H3 _]]. split; [intros a Ha; by apply (proj1 (Forall_forall _ _) H1)|intros a Ha; by apply (proj1 (Forall_forall _ _) H2)|done].
Qed.
Lemma parse_args_iff args cf rest :
  parse_args args = Returns (cf, rest) <-> arguments_ok args /\ passed args rest /\ config_of args cf.
Proof.
  pose proof (parse_from_spec args (mkMinimize None false config_default) []) as H. unfold parse_args.
  destruct (parse_from _ [] args) as [[cf' rest']|msg]; cbn [mc_dump mc_roundtrip mc_machine config_default cf_tree_borrows] in H.
  - destruct H as (K & O & (r & Hp & ->) & D & R & M). cbn [app]. split.
    + intros [= <- <-]. split; [by apply ok_known|]. split; [done|]. split.
      * intros k. rewrite D. split; [by intros [?|?]|by right].
      * rewrite R. split; [by intros [?|?]|by right].
      * rewrite M. split; [by intros [?|?]|by right].
    + intros (_ & Hp' & [D' R' M']). rewrite (passed_fun _ _ _ Hp Hp'). do 2 f_equal.
      destruct cf as [d b [t]], cf' as [d' b' [t']]. cbn in *. f_equal.
      * destruct d' as [k|].
        -- symmetry. apply D'. destruct (proj1 (D k) eq_refl); done.
        -- destruct d as [k|]; [|done]. apply D. right. by apply D'.
      * apply Is_true_true in R || idtac. destruct b, b'; try done.
        -- apply R. right. by apply R'.
        -- symmetry. apply R'. by destruct (proj1 R eq_refl).
      * f_equal. destruct t, t'; try done.
        -- apply M. right. by apply M'.
        -- symmetry. apply M'. by destruct (proj1 M eq_refl).
  - split; [done|]. intros (Ho & _). apply ok_known in Ho. done.
Qed.
Lemma parse_args_fatal args : (exists msg, parse_args args = Fatal msg) <-> ~ arguments_ok args.
Proof.
  destruct (parse_args args) as [[cf rest]|msg] eqn:E.
  - apply parse_args_iff in E as (Ho & _). split; [by intros (? & ?)|done].
  - split; [|by eexists]. intros _ Ho. apply ok_known in Ho. pose proof (parse_from_spec args (mkMinimize None false config_default) []) as H.
    unfold parse_args in E. rewrite E in H. done.
Qed.

(** ** The sysroot *)
Lemma find_after_iff a l v : find_after a l = Some v <-> option_value a l v.
Proof.
  induction l as [|x l IH]; [split; [done|]; by intros ([|? ?] & ? & ? & _)|]. destruct l as [|y l].
  - cbn. split; [done|]. intros ([|? [|? ?]] & ? & ? & _); done.
  - change (find_after a (x :: y :: l)) with (if (x =? a)%string then Some y else find_after a (y :: l)). destruct (String.eqb_spec x a) as [->|Hx].
    + split; [intros [= ->]; exists [], l; split; [done|apply not_elem_of_nil]|]. intros ([|z l1] & l2 & E & Hn); [by injection E as -> _|].
      injection E as <- _. destruct Hn. left.
    + rewrite IH. split.
      * intros (l1 & l2 & E & Hn). exists (x :: l1), l2. rewrite E. split; [done|]. rewrite elem_of_cons. intros [?|?]; congruence.
      * intros ([|z l1] & l2 & E & Hn); [injection E as -> _; done|]. injection E as <- E. exists l1, l2. split; [done|]. intros H. apply Hn. by right.
Qed.
Lemma find_after_none a l : find_after a l = None <-> forall v, ~ option_value a l v.
Proof.
  destruct (find_after a l) as [v|] eqn:E.
  - split; [done|]. intros H. destruct (H v). by apply find_after_iff.
  - split; [|done]. intros _ v H%find_after_iff. congruence.
Qed.
Lemma then_done {A B} (c : Call (Command A)) (k : A -> Call (Command B)) b :
  then_ c k = Done (Returns b) <-> exists a, c = Done (Returns a) /\ k a = Done (Returns b).
Proof.
  unfold then_. destruct c as [|[a|msg]| |]; cbn; (split; [intros E; try done; eauto|intros (a' & E & H); try done]). by injection E as ->.
Qed.
Lemma expects_done {A} (o : option A) a : expects o = Done (Returns a) <-> o = Some a.
Proof. destruct o; cbn; split; congruence. Qed.
Lemma is_str_true o s : is_str o s = true <-> o = Some s.
Proof. destruct o as [x|]; cbn; [rewrite String.eqb_eq|]; split; congruence. Qed.
Lemma setup_iff e args dir : setup_sysroot e args = Done (Returns dir) <-> sysroot_ok e args dir.
Proof.
  unfold setup_sysroot. rewrite then_done. split.
  - intros (d & Hd & E). apply then_done in E as ([[path there] name] & Hs%expects_done & E). destruct there; [|done]. cbn [negb] in E.
    destruct (is_str name "library") eqn:En; [|done]. apply is_str_true in En as ->. cbn [negb] in E.
    apply then_done in E as (t & Ht & E). destruct (se_exe e) eqn:Ee; [|done]. cbn [negb] in E. destruct (se_build e d t) eqn:Eb; [|done].
    injection E as ->. split; [|by eexists|done|].
    + unfold get_sysroot_dir in Hd. destruct (se_var e) as [v|]; [by injection Hd as ->; left|]. right. split; [done|]. by apply expects_done.
    + exists t. split; [done|]. unfold sysroot_target in Ht. destruct (find_after "--target" args) as [x|] eqn:Ef.
      * injection Ht as ->. left. by apply find_after_iff.
      * right. split; [by apply find_after_none|]. by apply expects_done.
  - intros [Hd (path & Hs) He (t & Hb & Ht)]. exists dir. split.
    + unfold get_sysroot_dir. destruct Hd as [->|[-> Hd]]; [done|]. by apply expects_done.
    + apply then_done. exists (path, true, Some "library"%string). split; [by apply expects_done|]. cbn [negb]. cbn.
      apply then_done. exists t. split.
      * unfold sysroot_target. destruct Ht as [->%find_after_iff|[->%find_after_none ->]]; done.
      * by rewrite He, Hb.
Qed.

(** ** The plan *)
Lemma probe_iff a : is_probe a = true <-> probe a.
Proof.
  unfold is_probe, probe. rewrite orb_true_iff, String.eqb_eq, begins_some. apply or_iff_compat_l.
  destruct (Run.strip_prefix "--print=" a); split; try done; [eauto|]. by intros (? & ?).
Qed.
Lemma existsb_probe l : existsb is_probe l = true <-> exists a, a ∈ l /\ probe a.
Proof.
  rewrite existsb_exists. split; intros (a & H1 & H2); exists a; [apply elem_of_list_In in H1|apply elem_of_list_In in H1]; by rewrite ?probe_iff in *.
Qed.
Lemma no_default_probe : existsb is_probe default_args = false.
Proof. reflexivity. Qed.

(** the arguments of the compiler *)
Definition sys_step (e : Env) (args all : list string) : Call (Command (option (list string))) :=
  if is_str (en_mode e) "only" then then_ (setup_sysroot (en_sys e) args) (fun _ => Done (Returns None))
  else if is_str (en_mode e) "off" then Done (Returns (Some all))
  else if existsb is_probe all then Done (Returns (Some all))
  else then_ (setup_sysroot (en_sys e) args) (fun dir =>
       then_ (expects (insert_1 [("--sysroot=" ++ dir)%string] all)) (fun all => Done (Returns (Some all)))).
Lemma sys_none e args all : sys_step e args all = Done (Returns None) <-> en_mode e = Some "only"%string /\ exists dir, sysroot_ok (en_sys e) args dir.
Proof.
  unfold sys_step. destruct (is_str (en_mode e) "only") eqn:E1.
  - apply is_str_true in E1. rewrite then_done. setoid_rewrite setup_iff. split; [intros (d & H & _); eauto|intros (_ & d & H); eauto].
  - assert (en_mode e <> Some "only"%string) as Hn by (intros H%is_str_true; congruence). split; [|by intros (? & _)].
    destruct (is_str (en_mode e) "off"); [intros [=]|]. destruct (existsb is_probe all); [intros [=]|]. intros (d & _ & H)%then_done. apply then_done in H as (x & _ & H). done.
Qed.
Lemma sys_some e a0 user l : sys_step e (a0 :: user) (a0 :: default_args ++ user) = Done (Returns (Some l)) <->
  exists sys, sysroot_args e (a0 :: user) sys /\ l = a0 :: sys ++ default_args ++ user.
Proof.
  assert (existsb is_probe (a0 :: default_args ++ user) = existsb is_probe (a0 :: user)) as Hp.
  { cbn [existsb]. rewrite existsb_app, no_default_probe. done. }
  unfold sys_step. rewrite Hp. destruct (is_str (en_mode e) "only") eqn:E1.
  - apply is_str_true in E1. split; [intros (d & _ & H)%then_done; done|]. intros (sys & Hs & _). exfalso. inversion Hs; congruence.
  - assert (en_mode e <> Some "only"%string) as Hn by (intros H%is_str_true; congruence). destruct (is_str (en_mode e) "off") eqn:E2.
    + apply is_str_true in E2. split.
      * intros [= <-]. exists []. split; [by constructor|done].
      * intros (sys & Hs & ->). inversion Hs; subst; done.
    + assert (en_mode e <> Some "off"%string) as Hn2 by (intros H%is_str_true; congruence). destruct (existsb is_probe (a0 :: user)) eqn:E3.
      * apply existsb_probe in E3 as (a & Ha & Hpa). split.
        -- intros [= <-]. exists []. split; [by eapply sa_probe|done].
        -- intros (sys & Hs & ->). inversion Hs as [|b|dir ? ? H]; subst; try done. exfalso. by eapply H.
      * assert (forall a, a ∈ a0 :: user -> ~ probe a) as Hno.
        { intros a Ha Hpa. assert (existsb is_probe (a0 :: user) = true) by (apply existsb_probe; eauto). congruence. }
        rewrite then_done. setoid_rewrite setup_iff. split.
        -- intros (dir & Hd & H). cbn in H. injection H as <-. eexists. split; [by apply (sa_dir e (a0 :: user) dir)|done].
        -- intros (sys & Hs & ->). inversion Hs as [|b ? Hb Hpb|dir ? ? H Hd]; subst; [done| |eauto]. exfalso. by eapply Hno.
Qed.
Lemma plan_eq e a0 user : plan e (a0 :: user) = then_ (sys_step e (a0 :: user) (a0 :: default_args ++ user)) (fun o =>
  match o with
  | None => Done (Returns PSysroot)
  | Some all =>
      if en_be_rustc e then then_ (be_rustc_args all) (fun all => Done (Returns (PRustc all)))
      else match parse_args all with
           | Fatal msg => Done (Fatal msg)
           | Returns (cf, rustc_args) => Done (Returns (PTranslate rustc_args cf))
           end
  end).
Proof. done. Qed.

(** arguments that are only for the compiler *)
Definition plain (a : string) : Prop := ~ for_minimize a /\ ~ for_machine a.
Lemma plain_sys dir : plain ("--sysroot=" ++ dir)%string.
Proof. split; intros (r & E); discriminate E. Qed.
Lemma plain_default a : a ∈ default_args -> plain a.
Proof.
  intros H. apply elem_of_list_In in H. repeat (destruct H as [<-|H]; [split; intros (r & E); discriminate E|]). done.
Qed.
Lemma sys_plain e args sys a : sysroot_args e args sys -> a ∈ sys -> plain a.
Proof. intros Hs H. destruct Hs as [?|? ? ? ?|dir ? ? ? ?]; [by apply elem_of_nil in H|by apply elem_of_nil in H|]. apply elem_of_list_singleton in H as ->. apply plain_sys. Qed.
Lemma passed_app l k r : (forall a, a ∈ l -> plain a) -> passed (l ++ k) r <-> exists s, r = l ++ s /\ passed k s.
Proof.
  intros H. revert r. induction l as [|a l IH]; intros r; [cbn; split; [eauto|by intros (s & -> & ?)]|].
  assert (plain a) as [Ha1 Ha2] by (apply H; left). assert (forall b, b ∈ l -> plain b) as Hl by (intros; apply H; by right). cbn. split.
  - intros K. inversion K as [|? ? ? [?|?]|? ? ? ? ? K']; subst; try done. apply IH in K' as (s & -> & K'); eauto.
  - intros (s & -> & K). constructor; [done|done|]. apply IH; eauto.
Qed.
Lemma ok_app l k : (forall a, a ∈ l -> plain a) -> arguments_ok (l ++ k) <-> arguments_ok k.
Proof.
  intros H. rewrite !ok_known. induction l as [|a l IH]; [done|]. assert (plain a) as [Ha1 Ha2] by (apply H; left).
  rewrite <-IH by (intros; apply H; by right). cbn [app]. rewrite once_other by (intros Hd; by apply Ha1, dump_for_minimize).
  unfold known. rewrite !Forall_cons. tauto.
Qed.
Lemma config_app l k cf : (forall a, a ∈ l -> plain a) -> config_of (l ++ k) cf <-> config_of k cf.
Proof.
  intros H. assert (forall a, ~ plain a -> a ∈ l ++ k <-> a ∈ k) as K.
  { intros a Ha. rewrite elem_of_app. split; [|by right]. intros [Hl|?]; [by destruct Ha, (H a Hl)|done]. }
  assert (forall k', ~ plain (dump_arg k')) as N1 by (intros k' [H1 _]; apply H1; apply dump_for_minimize; by exists k').
  assert (~ plain roundtrip_arg) as N2 by (intros [H1 _]; apply H1; by exists "check-json-roundtrip"%string).
  assert (~ plain tree_borrows_arg) as N3 by (intros [_ H1]; apply H1; by exists "tree-borrows"%string).
  split; intros [D R M]; split; try intros kk; rewrite ?D, ?R, ?M; first [by apply K|by rewrite K|symmetry; by apply K|symmetry; by rewrite K].
Qed.

Lemma plan_translate e a0 user l cf : plain a0 -> plan e (a0 :: user) = Done (Returns (PTranslate l cf)) <->
  en_be_rustc e = false /\ arguments_ok user /\ config_of user cf /\
  exists sys u, sysroot_args e (a0 :: user) sys /\ passed user u /\ l = a0 :: sys ++ default_args ++ u.
Proof.
  intros Ha0. rewrite plan_eq, then_done.
  assert (forall sys, sysroot_args e (a0 :: user) sys -> forall a, a ∈ a0 :: sys ++ default_args -> plain a) as Hpl.
  { intros sys Hs a Ha. apply elem_of_cons in Ha as [->|Ha]; [done|]. apply elem_of_app in Ha as [Ha|Ha]; [by eapply sys_plain|by apply plain_default]. }
  split.
  - intros ([all|] & Hs & E); [|done]. apply sys_some in Hs as (sys & Hs & ->). destruct (en_be_rustc e); [apply then_done in E as (? & _ & E); done|].
    destruct (parse_args _) as [[cf' r]|] eqn:Ep; [|done]. injection E as -> ->. apply parse_args_iff in Ep.
    replace (a0 :: sys ++ default_args ++ user) with ((a0 :: sys ++ default_args) ++ user) in Ep by (cbn; by rewrite <-app_assoc).
    destruct Ep as (Ho & Hp & Hc). apply ok_app in Ho; [|by apply Hpl]. apply config_app in Hc; [|by apply Hpl]. apply passed_app in Hp as (s & -> & Hp); [|by apply Hpl].
    do 3 (split; [done|]). exists sys, s. split; [done|]. split; [done|]. cbn. by rewrite <-app_assoc.
  - intros (Hb & Ho & Hc & sys & u & Hs & Hp & ->). eexists. split; [apply sys_some; eauto|]. cbn beta iota. rewrite Hb.
    assert (parse_args (a0 :: sys ++ default_args ++ user) = Returns (cf, a0 :: sys ++ default_args ++ u)) as ->; [|done].
    apply parse_args_iff. replace (a0 :: sys ++ default_args ++ user) with ((a0 :: sys ++ default_args) ++ user) by (cbn; by rewrite <-app_assoc).
    rewrite ok_app, config_app, passed_app by (by apply Hpl). split; [done|]. split; [|done]. exists u. split; [cbn; by rewrite <-app_assoc|done].
Qed.
Lemma has_pair_iff a b l : has_pair a b l = true <-> exists l1 l2, l = l1 ++ a :: b :: l2.
Proof.
  induction l as [|x l IH]; [split; [done|]; by intros ([|? ?] & ? & ?)|]. destruct l as [|y l].
  - cbn. split; [done|]. by intros ([|? [|? ?]] & ? & ?).
  - change (has_pair a b (x :: y :: l)) with (((x =? a)%string && (y =? b)%string) || has_pair a b (y :: l)). rewrite orb_true_iff, IH, andb_true_iff, !String.eqb_eq. split.
    + intros [[-> ->]|(l1 & l2 & E)]; [by exists [], l|]. exists (x :: l1), l2. by rewrite E.
    + intros ([|z l1] & l2 & E); [injection E as -> ->; by left|]. injection E as <- E. right. eauto.
Qed.
Lemma plan_rustc e a0 user l : plan e (a0 :: user) = Done (Returns (PRustc l)) <->
  en_be_rustc e = true /\ exists sys, sysroot_args e (a0 :: user) sys /\
  (((exists l1 l2, user = l1 ++ "--crate-name"%string :: "panic_abort"%string :: l2) /\ l = a0 :: "-Cpanic=abort"%string :: sys ++ default_args ++ user) \/
   (~ (exists l1 l2, user = l1 ++ "--crate-name"%string :: "panic_abort"%string :: l2) /\ l = a0 :: sys ++ default_args ++ user)).
Proof.
  rewrite plan_eq, then_done.
  assert (forall sys, sysroot_args e (a0 :: user) sys -> has_pair "--crate-name" "panic_abort" (a0 :: sys ++ default_args ++ user) = has_pair "--crate-name" "panic_abort" user) as Hp.
  { intros sys Hs. assert (has_pair "--crate-name" "panic_abort" (a0 :: default_args ++ user) = has_pair "--crate-name" "panic_abort" user) as Hd.
    { cbn. rewrite andb_false_r. cbn. by destruct user. }
    destruct Hs as [| |dir]; [done|done|]. cbn. rewrite andb_false_r. cbn. by destruct user. }
  split.
  - intros ([all|] & Hs & E); [|done]. apply sys_some in Hs as (sys & Hs & ->). destruct (en_be_rustc e); [|by destruct (parse_args _) as [[? ?]|]].
    apply then_done in E as (x & E & [= ->]). split; [done|]. exists sys. split; [done|]. unfold be_rustc_args in E. rewrite (Hp _ Hs) in E.
    destruct (has_pair _ _ user) eqn:Eh.
    + injection E as <-. left. split; [|done]. by apply has_pair_iff.
    + injection E as <-. right. split; [|done]. intros H%has_pair_iff. congruence.
  - intros (Hb & sys & Hs & H). eexists. split; [apply sys_some; eauto|]. cbn beta iota. rewrite Hb. apply then_done.
    exists l. split; [|done]. unfold be_rustc_args. rewrite (Hp _ Hs). destruct H as [[H ->]|[H ->]].
    + apply has_pair_iff in H as ->. done.
    + destruct (has_pair _ _ user) eqn:Eh; [|done]. destruct H. by apply has_pair_iff.
Qed.
Lemma plan_sysroot e a0 user : plan e (a0 :: user) = Done (Returns PSysroot) <->
  en_mode e = Some "only"%string /\ exists dir, sysroot_ok (en_sys e) (a0 :: user) dir.
Proof.
  rewrite plan_eq, then_done, <-(sys_none e (a0 :: user) (a0 :: default_args ++ user)). split.
  - intros ([all|] & Hs & E); [|done]. destruct (en_be_rustc e); [apply then_done in E as (? & _ & E); done|by destruct (parse_args _) as [[? ?]|]].
  - intros H. by exists None.
Qed.

(** ** What is done with the program *)
Lemma roundtrip_iff j prog : assert_roundtrip j prog = Done (Returns tt) <-> roundtrips j prog.
Proof.
  unfold assert_roundtrip, roundtrips. rewrite then_done. setoid_rewrite then_done. setoid_rewrite expects_done. split.
  - intros (s & Hs & p & Hp & E). exists s, p. by destruct (js_eq j prog p).
  - intros (s & p & Hs & Hp & E). exists s. split; [done|]. exists p. by rewrite E.
Qed.
Lemma roundtrip_not j prog msg : assert_roundtrip j prog <> Done (Fatal msg).
Proof. unfold assert_roundtrip. destruct (js_to j prog) as [s|]; [|done]. cbn. destruct (js_from j s) as [p|]; [|done]. cbn. by destruct (js_eq j prog p). Qed.
Lemma then_run T cf r ob ot prog : then_ (run_prog_and_print_errors T cf r ob ot prog) (fun _ => Done (Returns DidRun)) =
  after (run_prog T cf r ob ot prog) (fun t => Done (ends_with t)).
Proof. rewrite print_errors. unfold then_. destruct (run_prog T cf r ob ot prog) as [|t| |]; try done. by destruct t. Qed.
Lemma ends_with_inj t t' : ends_with t = ends_with t' -> t = t'.
Proof. intros H. apply report_inj. destruct t, t'; cbn in *; congruence. Qed.
Lemma run_iff T j cf prog t : mc_dump cf = None ->
  (exists r ob ot, with_program T j cf prog r ob ot = Done (ends_with t)) <->
  (mc_roundtrip cf = true -> roundtrips j prog) /\ exists r ob ot, run_prog T (mc_machine cf) r ob ot prog = Done t.
Proof.
  intros Hd. unfold with_program. rewrite Hd.
  assert (forall r ob ot, then_ (run_prog_and_print_errors T (mc_machine cf) r ob ot prog) (fun _ => Done (Returns DidRun)) = Done (ends_with t) <->
    run_prog T (mc_machine cf) r ob ot prog = Done t) as K.
  { intros r ob ot. rewrite then_run, after_done. split; [|intros E; eauto]. intros (t' & E & [= H%ends_with_inj]). by subst. }
  destruct (mc_roundtrip cf).
  - rewrite <-roundtrip_iff. split.
    + intros (r & ob & ot & E). unfold then_ at 1 in E. destruct (assert_roundtrip j prog) as [|[[]|msg]| |] eqn:Er; try done.
      * split; [done|]. exists r, ob, ot. by apply K.
      * by destruct (roundtrip_not j prog msg).
    + intros (Hr & r & ob & ot & E). exists r, ob, ot. rewrite (Hr eq_refl). cbn. by apply K.
  - split.
    + intros (r & ob & ot & E). split; [done|]. exists r, ob, ot. by apply K.
    + intros (_ & r & ob & ot & E). exists r, ob, ot. cbn. by apply K.
Qed.
Lemma run_prog_iff T cf args prog t : (cf_tree_borrows cf = true <-> tree_borrows_arg ∈ args) ->
  (exists r ob ot, run_prog T cf r ob ot prog = Done t) <-> possible T args prog t.
Proof.
  intros Hcf. unfold run_prog, possible. split.
  - intros (r & ob & ot & E). destruct (cf_tree_borrows cf) eqn:Eb.
    + left. split; [by apply Hcf|]. apply (program_ends T (TreeOps T)). by exists r, ot.
    + right. split; [intros H%Hcf; done|]. apply (program_ends T (BasicOps T)). by exists r, ob.
  - intros [(Hin & Hp)|(Hin & Hp)].
    + apply (program_ends T (TreeOps T)) in Hp as (r & o & Hp). exists r, (mkOracle [] (fun _ => [])), o. by apply Hcf in Hin as ->.
    + apply (program_ends T (BasicOps T)) in Hp as (r & o & Hp). exists r, o, (mkOracle [] (fun _ => [])).
      destruct (cf_tree_borrows cf); [by destruct Hin; apply Hcf|done].
Qed.
