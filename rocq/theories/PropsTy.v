(** The translation of types (C83, C84).

    Vocabulary in MirTySpec: [ty_ok L ht plain r]: the compiler's layout of [r] and of its parts is sane and, if [plain], not
    one of those the translation does not handle; [layout_of]: size and alignment of a type as MiniRust describes them;
    [translates L r t]: the code translates the type [r] to [t]; [tag_means]: what the tag of an enum says. *)
From Verif Require Import MirTyWf.
From Verif Require Import MirTySpec.

Section Aux.
  Notation T := x86_64.
  Context (L : RTypes) (ht : TraitName -> bool).

  Lemma layout_of_fun r l l' : layout_of L r l -> layout_of L r l' -> l = l'.
  Proof. intros H H'. inversion H; inversion H'; subst; congruence. Qed.
  Lemma fields_are offs tys fs : fs.*1 = offs -> Forall2 (ftr L ht (translate_ty L)) tys fs.*2 -> translates_fields L offs tys fs.
  Proof.
    intros E HF. pose proof (Forall2_length _ _ _ HF) as Hl. rewrite fmap_length in Hl. split; [done|]. intros i ty Hi.
    rewrite Forall2_lookup in HF. specialize (HF i). rewrite Hi, list_lookup_fmap in HF. inversion HF as [? t [_ Ht] Et|]; subst.
    destruct (fs !! i) as [[o t']|] eqn:Ef; [|done]. cbn in *. exists o, t. rewrite list_lookup_fmap, Ef. split; [done|]. split; [exact Ht|]. congruence.
  Qed.
  Lemma ok_enum_inv r dty vs : ty_ok L ht True r -> ty_kind L r = RkEnum dty vs -> exists dit,
    lay_ok L r /\ ty_kind L dty = RkInt dit /\ rust_int dit /\ NoDup (List.map (fun v => int_from_bits (fst v) dit) vs) /\
    (forall v ty, v ∈ vs -> ty ∈ snd v -> yields (fun m => translate_ty L m ty) (fty_ok L ht ty)) /\
    variants_ok L True r dit vs (rl_variants (ty_layout L r)).
  Proof.
    intros H Hk. inversion H as [| | | |r0 tys Hk'| |r0 p Hk'| | | | | | | |r0 dty' dit vs' Hk' Hl Hdk Hdi Hnd Hsz Hty Hvo]; subst; try congruence.
    - destruct Hk' as [|[[? ?]|]]; congruence.
    - destruct Hk' as [|[[? ?]|]]; congruence.
    - rewrite Hk in Hk'. injection Hk' as <- <-. exists dit. repeat (split; [done|]). split; [|done].
      intros v ty Hv Ht. eapply yields_mono; [by eapply types_yield, Hty|]. intros t. apply good_fty. by eapply Hsz.
  Qed.
  Lemma enum_translates r dty vs t : ty_ok L ht True r -> ty_kind L r = RkEnum dty vs -> translates L r t -> exists dit tv discr,
    ty_kind L dty = RkInt dit /\ lay_ok L r /\ NoDup (List.map (fun v => int_from_bits (fst v) dit) vs) /\
    (forall v ty, v ∈ vs -> ty ∈ snd v -> yields (fun m => translate_ty L m ty) (fty_ok L ht ty)) /\
    t = TEnum tv dit discr (lsize L r) (lalign L r) /\
    (forall i, rl_variants (ty_layout L r) = VaSingle i -> exists v, vs !! i = Some v /\ discr = DKnown (int_from_bits (fst v) dit)) /\
    (forall tag enc tf shapes, rl_variants (ty_layout L r) = VaMultiple tag enc tf shapes -> exists tit off,
       ty_kind L (tg_int_ty tag) = RkInt tit /\ rl_offsets (ty_layout L r) !! tf = Some off /\ rust_int tit /\ tg_size tag = it_size tit /\
       (off + it_size tit <= lsize L r)%N /\ encoding_ok L True dit tit tag vs enc /\
       multi_form L ht r dit vs (translate_ty L) tag tit off shapes enc (tv, discr)).
  Proof.
    intros Hok Hk Ht. destruct (ok_enum_inv _ _ _ Hok Hk) as (dit & Hl & Hdk & Hdi & Hnd & Hty & Hvo).
    pose proof (enum_yields L ht r dty dit vs Hl Hdk Hdi Hnd Hty Hvo) as Hy.
    assert (Hx : forall m, translate_enum (translate_ty L m) (ty_layout L r) dty vs = translate_ty L (S m) r) by (intros m; cbn [translate_ty]; by rewrite Hk).
    apply (yields_ext _ _ _ Hx), (yields_S (fun m => translate_ty L m r)) in Hy. destruct Hy as (t' & Ht' & _ & tv & discr & E & Hs & Hm).
    rewrite (enough_fun _ _ _ Ht Ht') in *. exists dit, tv, discr. repeat (split; [done|]). done.
  Qed.
  Lemma decode_bits {P} it ds (ps : list (option (ProvFrag P))) : rust_int it -> length ds = N.to_nat (it_size it) -> length ps = length ds ->
    exists z, decode_int_opt T it (zip_with Init ds ps) = Ret (Some z) /\ can_represent it z = true /\ z mod tag_values it = le_decode ds.
  Proof.
    intros Hi Hl Hps. unfold decode_int_opt. rewrite zip_with_length, Hps, Nat.min_id, Hl, N2Nat.id, N.eqb_refl.
    assert (bytes_data (zip_with Init ds ps) = Some ds) as ->.
    { clear Hl. revert ps Hps. induction ds as [|d ds IH]; intros [|p ps] Hps; try done. cbn in Hps |- *. rewrite IH by lia. done. }
    eexists. split; [reflexivity|]. split.
    - unfold can_represent. pose proof (endian_decode_in (ENDIANNESS T) (it_signed it) ds) as H. rewrite Hl, N2Nat.id in H. exact H.
    - unfold endian_decode, tag_values. change (ENDIANNESS T) with LittleEndian. cbn iota. fold (size_bits (it_size it)).
      rewrite Hl, N2Nat.id. rewrite bring_in_bounds_mod. apply Z.mod_small. pose proof (le_decode_range ds) as Hr. rewrite Hl in Hr.
      rewrite size_bits_pow. rewrite N_nat_Z in Hr. exact Hr.
  Qed.
  Lemma part_yields r : ty_ok L ht True r -> yields (fun m => translate_ty L m r) (translates L r).
  Proof. intros H. eapply yields_mono; [apply yields_self, types_yield, H|]. intros t [_ Ht]. exact Ht. Qed.
  Lemma kinds_yield r : ty_ok L ht True r -> yields (fun m => translate_ty L m r) (becomes L r).
  Proof.
    intros H. assert (Hpt : forall p, pointee_ok L ht True p -> yields (fun m => pointee_info_of L m p) (fun pi => layout_of L p (pi_layout pi) /\ translates_pointee L p pi)).
    { intros p Hp. eapply yields_mono; [apply yields_self, pointee_yields, Hp|]. intros pi [[Hlo _] Ht]. split; [done|exact Ht]. }
    destruct H as [r Hk Hl|r it Hk Hi Hl|r Hk Hl|r inner Hk Hsi Hin Hs Es Ea|r tys Hk Hl Hf Hsz Htys|r tys Hk Hl Hlen Hf Hsz Htys|
      r p Hk Hp Hl1 Hl2|r Hk Hl|r Hk Hl Huk Huo Hul|r Hk Hl|r e n Hk Hl Es Ea Hse He|r e Hk Hn Hse He|r Hk Hn|r tn Hk Hn Ht|
      r dty dit vs Hk Hl Hdk Hdi Hnd Hsz Hvs Hvo];
      apply yields_S; cbn [translate_ty].
    - rewrite Hk. apply yields_ret. by constructor.
    - rewrite Hk. apply yields_ret. by constructor.
    - rewrite Hk. apply yields_ret. by constructor.
    - rewrite Hk. eapply yields_mono; [by apply part_yields|]. intros t Ht. by eapply bc_pat.
    - assert (Htr : forall ty, ty ∈ tys -> yields (fun m => translate_ty L m ty) (fty_ok L ht ty)).
      { intros ty Hty. eapply yields_mono; [by apply types_yield, Htys|]. intros t. apply good_fty. by apply Hsz. }
      pose proof (proj1 Hf) as Hlen. pose proof Hk as Hk0.
      destruct Hk as [Hk|[[b Hk]|Hk]]; rewrite Hk.
      + eapply yields_mono; [by apply fields_layout|]. cbn beta. intros t (fs & -> & E & HF). eapply bc_fields; [exact Hk0|]. by eapply fields_are.
      + eapply yields_bind; [unfold translate_non_enum_adt; by apply fields_some|]. cbn beta. intros fs [E HF]. apply yields_ret. eapply bc_fields; [exact Hk0|]. by eapply fields_are.
      + eapply yields_mono; [by apply fields_layout|]. cbn beta. intros t (fs & -> & E & HF). eapply bc_fields; [exact Hk0|]. by eapply fields_are.
    - destruct (types_yield L ht r ltac:(by apply (ok_union L ht True r tys))) as (t & Ht & _).
      assert (yields (fun m => variant_fields (translate_ty L m) (Some (rl_offsets (ty_layout L r))) tys) (fun fs => fs.*1 = rl_offsets (ty_layout L r) /\ Forall2 (ftr L ht (translate_ty L)) tys fs.*2))
        as (fs & Hfs & E & HF).
      { apply fields_some; [done|]. intros ty Hty. eapply yields_mono; [by apply types_yield, Htys|]. intros t'. apply good_fty. by apply Hsz. }
      exists t. destruct Ht as [n Ht], Hfs as [n' Hfs]. split.
      + exists (n + 0)%nat. intros m Hm. specialize (Ht (S m)). cbn [translate_ty] in Ht. apply Ht. lia.
      + specialize (Ht (S (n + n'))). cbn [translate_ty] in Ht. rewrite Hk in Ht. unfold translate_non_enum_adt in Ht. rewrite Hfs in Ht by lia.
        cbn [obind] in Ht. unfold union_ty in Ht. specialize (Ht ltac:(lia)). apply obind_ret in Ht as (ch & _ & [= <-]).
        eapply bc_union; [exact Hk|]. by eapply fields_are.
    - destruct Hk as [Hk|[[mu Hk]|Hk]]; rewrite Hk; (eapply yields_bind; [by apply Hpt|]); cbn beta; intros pi [Hlo Hpi]; apply yields_ret.
      + by eapply bc_box.
      + by eapply bc_ref.
      + eapply bc_raw; [exact Hk|]. inversion Hlo as [? Hs E|? e Hs ? E|? Hs ? E|? tn Hs ? E]; cbn [layout_meta_kind]; by econstructor.
    - rewrite Hk. apply yields_ret. by constructor.
    - rewrite Hk. apply yields_S. cbn [translate_ty]. rewrite Huk. unfold tuple_from_layout. rewrite Huo. cbn [length seq map_m obind]. apply yields_ret.
      apply (lay_is_align L ht _ 0 align_one) in Hul as (? & Eus & Eua). unfold lsize, lalign in Eus, Eua. rewrite Eus, Eua. by apply bc_fndef.
    - rewrite Hk. apply yields_ret. by apply bc_never.
    - rewrite Hk. eapply yields_bind; [by apply part_yields|]. cbn beta. intros t Ht. apply yields_ret. by apply bc_array with e.
    - rewrite Hk. eapply yields_bind; [by apply part_yields|]. cbn beta. intros t Ht. apply yields_ret. by apply bc_slice with e.
    - rewrite Hk. apply yields_ret. by constructor.
    - rewrite Hk. apply yields_ret. by constructor.
    - rewrite Hk. eapply yields_mono; [apply (enum_yields L ht r dty dit vs); try done|].
      + intros v ty Hv Ht. eapply yields_mono; [by eapply types_yield, Hvs|]. intros t. apply good_fty. by eapply Hsz.
      + intros t (_ & tv & discr & -> & _). by eapply bc_enum.
  Qed.
End Aux.

(** ** C83 *)

(** A type with a sane layout is translated to a well-formed type with that layout. Not covered: the layouts that [plain]
    excludes; the claim is false for them, see below. *)
Theorem C83_types_partial : forall (L : RTypes) (ht : TraitName -> bool) (r : RTy),
  ty_ok L ht True r ->
  exists t l, translates L r t /\ ty_check_wf x86_64 ht t = Ret tt /\ layout_of L r l /\ layout x86_64 t = Ret l.
Proof. intros L ht r H. destruct (types_yield L ht r H) as (t & Ht & Hw & l & Hl & E). by exists t, l. Qed.
Print Assumptions C83_types_partial.

(** Each type becomes what it should ([becomes]): integers, characters and pointers of the right kind, arrays of the right length, and so
    on. *)
Theorem C83_kinds_partial : forall (L : RTypes) (ht : TraitName -> bool) (r : RTy) (t : Ty),
  ty_ok L ht True r -> translates L r t -> becomes L r t.
Proof. intros L ht r t Hok Ht. destruct (kinds_yield L ht r Hok) as (t' & Ht' & Hb). by rewrite (enough_fun _ _ _ Ht Ht'). Qed.
Print Assumptions C83_kinds_partial.

(** Tuples, structs and closures become tuples: each field at its offset, with its translated type. *)
Theorem C83_fields_partial : forall (L : RTypes) (ht : TraitName -> bool) (r : RTy) (tys : list RTy) (t : Ty),
  ty_ok L ht True r -> ty_kind L r = RkTuple tys \/ (exists b, ty_kind L r = RkStruct b tys) \/ ty_kind L r = RkClosure tys ->
  translates L r t ->
  exists fs, t = TTuple fs (mkHead (lsize L r) (lalign L r) None) None /\ translates_fields L (rl_offsets (ty_layout L r)) tys fs.
Proof.
  intros L ht r tys t Hok Hk Ht.
  assert (Hinv : length (rl_offsets (ty_layout L r)) = length tys /\ (forall ty, ty ∈ tys -> yields (fun m => translate_ty L m ty) (fty_ok L ht ty))).
  { inversion Hok as [r0 Hk'|r0 it Hk'|r0 Hk'|r0 inner Hk'|r0 tys' Hk' Hl Hf Hsz Hty|r0 tys' Hk'|r0 p Hk'|r0 Hk'|r0 Hk'|r0 Hk'|r0 e n Hk'|r0 e Hk'|r0 Hk'|r0 tn Hk'|r0 dty dit vs Hk']; subst;
      try (destruct Hk as [Hk|[[? Hk]|Hk]]; congruence).
    - assert (tys' = tys) as -> by (destruct Hk as [Hk|[[? Hk]|Hk]], Hk' as [Hk'|[[? Hk']|Hk']]; congruence).
      split; [apply Hf|]. intros ty Hin. eapply yields_mono; [by apply types_yield, Hty|]. intros t'. apply good_fty. by apply Hsz.
    - exfalso. destruct Hk as [Hk|[[? Hk]|Hk]], Hk' as [Hk'|[[? Hk']|Hk']]; congruence. }
  destruct Hinv as [Hlen Htr].
  assert (yields (fun m => translate_ty L m r) (fun t => exists fs, t = b_tuple_ty fs (lsize L r) (lalign L r) /\ fs.*1 = rl_offsets (ty_layout L r) /\
    Forall2 (ftr L ht (translate_ty L)) tys fs.*2)) as (t' & Ht' & fs & -> & E & HF).
  { apply yields_S. cbn [translate_ty]. destruct Hk as [Hk|[[b Hk]|Hk]]; rewrite Hk.
    - by apply fields_layout.
    - eapply yields_bind; [unfold translate_non_enum_adt; by apply fields_some|]. cbn beta. intros fs [E HF]. apply yields_ret. by exists fs.
    - by apply fields_layout. }
  rewrite (enough_fun _ _ _ Ht Ht'). exists fs. split; [done|]. by eapply fields_are.
Qed.
Print Assumptions C83_fields_partial.

(** What the translation says about the pointee of a pointer is well-formed and gives its layout. *)
Theorem C83_pointee_partial : forall (L : RTypes) (ht : TraitName -> bool) (r : RTy),
  pointee_ok L ht True r ->
  exists pi, translates_pointee L r pi /\ pointee_check_wf x86_64 ht pi = Ret tt /\ layout_of L r (pi_layout pi).
Proof. intros L ht r H. destruct (pointee_yields L ht r H) as (pi & Hpi & Hl & Hw). by exists pi. Qed.
Print Assumptions C83_pointee_partial.

(** What it says about the values of the pointee is what the compiler says: whether there are any, whether they have no interior
    mutability and whether they may be moved. The kind of cells goes with the kind of layout. *)
Theorem C83_facts : forall (L : RTypes) (r : RTy) (pi : PointeeInfo), translates_pointee L r pi ->
  pi_inhabited pi = negb (rl_uninhabited (ty_layout L r)) /\ pi_freeze pi = ty_freeze L r /\ pi_unpin pi = ty_unpin L r /\
  match pi_layout pi, pi_cells pi with
  | LSized _ _, CSized _ => lsized L r
  | LSlice _ _, CSlice _ => (exists e, ty_kind L r = RkSlice e) \/ ty_kind L r = RkStr
  | LTraitObject tn, CTraitObject => ty_kind L r = RkDyn tn
  | _, _ => False
  end.
Proof.
  intros L r pi [n H]. specialize (H n (le_n n)). unfold pointee_info_of in H.
  destruct (rl_sized (ty_layout L r)) eqn:Es; [|destruct (ty_kind L r) eqn:Ek; try done].
  - apply obind_ret in H as (cs & _ & [= <-]). done.
  - apply obind_ret in H as (cs & _ & [= <-]). repeat split. left. by eexists.
  - injection H as <-. repeat split. by right.
  - injection H as <-. done.
Qed.
Print Assumptions C83_facts.

(** Of the assumptions on the compiler in the theorems on the translation of programs (C79-C82), the two on types follow if
    the types are translated as here. *)
Theorem C83_compiler_partial : forall (R : Rustc) (L : RTypes),
  (forall r t, rc_ty R r = Some t -> ty_ok L (map_contains (traits_of R)) True r /\ translates L r t) ->
  (forall r pi, rc_pointee R r = Some pi -> pointee_ok L (map_contains (traits_of R)) True r /\ translates_pointee L r pi) ->
  (forall r t, rc_ty R r = Some t -> ty_check_wf x86_64 (map_contains (traits_of R)) t = Ret tt) /\
  (forall r t pi, rc_ty R r = Some t -> rc_pointee R r = Some pi ->
     layout x86_64 t = Ret (pi_layout pi) /\ pointee_check_wf x86_64 (map_contains (traits_of R)) pi = Ret tt).
Proof.
  intros R L Hty Hpi.
  assert (H1 : forall r t, rc_ty R r = Some t -> ty_check_wf x86_64 (map_contains (traits_of R)) t = Ret tt /\ exists l, layout_of L r l /\ layout x86_64 t = Ret l).
  { intros r t E. destruct (Hty _ _ E) as [Hok Ht]. destruct (types_yield _ _ _ Hok) as (t' & Ht' & Hg). rewrite (enough_fun _ _ _ Ht Ht'). exact Hg. }
  split; [intros r t E; by apply (H1 r t)|]. intros r t pi E Ep. destruct (H1 _ _ E) as (_ & l & Hl & El). destruct (Hpi _ _ Ep) as [Hok Ht].
  destruct (pointee_yields _ _ _ Hok) as (pi' & Hpi' & Hl' & Hw). rewrite (enough_fun _ _ _ Ht Hpi'). split; [|done]. by rewrite El, (layout_of_fun _ _ _ _ Hl Hl').
Qed.
Print Assumptions C83_compiler_partial.

(** ** C84 *)

(** Each value of the tag means one variant or is invalid. *)
Theorem C84_meaning : forall (L : RTypes) (dit tit : IntType) (tag : RTag) (vs : list (Z * list RTy)) (enc : RTagEncoding) (b : Z),
  rust_int tit -> NoDup (List.map (fun v => int_from_bits (fst v) dit) vs) -> encoding_ok L False dit tit tag vs enc ->
  exists! o, tag_means dit tit tag vs enc b o.
Proof.
  intros L dit tit tag vs enc b Hti Hnd He.
  assert (Hex : exists o, tag_means dit tit tag vs enc b o).
  { destruct enc as [|u first last ns].
    - destruct (decide (Exists (fun v => b = int_from_bits (fst v) dit mod tag_values tit) vs)) as [H|H].
      + apply Exists_exists in H as (v & Hv & E). apply elem_of_list_lookup in Hv as [i Hi]. exists (Some i). by eapply tm_direct.
      + exists None. apply tm_direct_none. intros v Hv E. apply H. apply Exists_exists. by exists v.
    - destruct (decide (Exists (fun i => b = niche_bits tit first ns i) (seq first (S last - first)))) as [H|H].
      + apply Exists_exists in H as (i & Hi & ->). apply elem_of_seq in Hi. destruct (decide (i = u)) as [->|Hne].
        * exists None. apply tm_untagged_tag. lia.
        * exists (Some i). apply tm_tagged; [lia|done].
      + assert (Hno : forall i, (first <= i <= last)%nat -> b <> niche_bits tit first ns i).
        { intros i Hi E. apply H. apply Exists_exists. exists i. split; [apply elem_of_seq; lia|done]. }
        assert (wrapping_range (tg_start tag) (tg_end tag) b \/ ~ wrapping_range (tg_start tag) (tg_end tag) b) as [Hw|Hw].
        { unfold wrapping_range. destruct (_ <=? _); lia. }
        * exists (Some u). by apply tm_untagged.
        * exists None. by apply tm_outside. }
  destruct Hex as [o Ho]. exists o. split; [done|]. intros o' Ho'. destruct enc as [|u first last ns].
  - inversion Ho as [i v ? Hi Eb|? Hn| | | |]; subst; inversion Ho' as [j w ? Hj Eb'|? Hn'| | | |]; subst; try done.
    + f_equal. assert (E : int_from_bits (fst v) dit = int_from_bits (fst w) dit).
      { eapply (value_unique tit); [apply (He v); by eapply elem_of_list_lookup_2|apply (He w); by eapply elem_of_list_lookup_2|done]. }
      change (NoDup ((fun v : Z * list RTy => int_from_bits (fst v) dit) <$> vs)) in Hnd.
      eapply (proj1 (NoDup_alt _) Hnd); [rewrite list_lookup_fmap, Hi; reflexivity|]. rewrite list_lookup_fmap, Hj. cbn. by rewrite E.
    + exfalso. eapply Hn'; [by eapply elem_of_list_lookup_2|done].
    + exfalso. eapply Hn; [by eapply elem_of_list_lookup_2|done].
  - destruct He as (_ & _ & _ & _ & _ & _ & HM & Hval & _).
    inversion Ho as [| |? ? ? ? ? Hout|? ? ? ? i Hi Hne|? ? ? ? Hi|? ? ? ? ? Hw Hno]; subst;
    inversion Ho' as [| |? ? ? ? ? Hout'|? ? ? ? j Hj Hne' Ej|? ? ? ? Hj Ej|? ? ? ? ? Hw' Hno']; subst; try done.
    + exfalso. apply Hout. by apply Hval.
    + exfalso. apply Hout'. by apply Hval.
    + f_equal. symmetry. eapply (niche_bits_inj tit Hti first last ns); done.
    + exfalso. apply Hne. symmetry. eapply (niche_bits_inj tit Hti first last ns); done.
    + exfalso. by eapply Hno'.
    + exfalso. apply Hne'. eapply (niche_bits_inj tit Hti first last ns); done.
    + exfalso. by eapply Hno'.
    + exfalso. by eapply Hno.
    + exfalso. by eapply Hno.
Qed.
Print Assumptions C84_meaning.

(** Reading the discriminant of a translated enum gives the discriminant of the variant that the tag means. Not covered: the
    enums that [plain] excludes; the claim is false for them. *)
Theorem C84_read_partial : forall (L : RTypes) (ht : TraitName -> bool) (r dty : RTy) (dit tit : IntType) (vs : list (Z * list RTy))
    (tag : RTag) (enc : RTagEncoding) (tf : nat) (shapes : list (list Offset)) (off : Offset) (t : Ty),
  ty_ok L ht True r -> ty_kind L r = RkEnum dty vs -> ty_kind L dty = RkInt dit ->
  rl_variants (ty_layout L r) = VaMultiple tag enc tf shapes ->
  ty_kind L (tg_int_ty tag) = RkInt tit -> rl_offsets (ty_layout L r) !! tf = Some off -> translates L r t ->
  exists tv discr, t = TEnum tv dit discr (lsize L r) (lalign L r) /\
  forall (P S : Type) (accessor : S -> Offset -> Size -> Outcome (list (AByte P) * S)) (s s' : S) (ds : list byte) (ps : list (option (ProvFrag P))) (o : option nat),
    length ds = N.to_nat (it_size tit) -> length ps = length ds ->
    accessor s off (it_size tit) = Ret (zip_with Init ds ps, s') ->
    tag_means dit tit tag vs enc (le_decode ds) o ->
    decode_discriminant x86_64 accessor discr s =
      Ret (match o with Some i => option_map (fun v => int_from_bits (fst v) dit) (vs !! i) | None => None end, s').
Proof.
  intros L ht r dty dit tit vs tag enc tf shapes off t Hok Hk Hdk Hv Htk Hof Ht.
  destruct (enum_translates _ _ _ _ _ _ Hok Hk Ht) as (dit' & tv & discr & Hdk' & Hl & Hnd & Htr & -> & _ & Hm).
  rewrite Hdk in Hdk'. injection Hdk' as <-. destruct (Hm _ _ _ _ Hv) as (tit' & off' & Htk' & Hof' & Hti & Hsz & Hoff & He & Hform).
  rewrite Htk in Htk'. injection Htk' as <-. rewrite Hof in Hof'. injection Hof' as <-.
  exists tv, discr. split; [done|]. intros P S accessor s s' ds ps o Hds Hps Hacc Hmean.
  destruct (decode_bits tit ds ps Hti Hds Hps) as (z & Hdec & Hz & Ez). rewrite <- Ez in Hmean.
  eapply (multi_reads L ht r dit vs (translate_ty L) Hnd Htr tag tit off shapes Hti Hsz Hoff accessor enc (tv, discr)); done.
Qed.
Print Assumptions C84_read_partial.

(** With one inhabited variant there is no tag. *)
Theorem C84_read_single_partial : forall (L : RTypes) (ht : TraitName -> bool) (r dty : RTy) (dit : IntType) (vs : list (Z * list RTy)) (i : nat) (t : Ty),
  ty_ok L ht True r -> ty_kind L r = RkEnum dty vs -> ty_kind L dty = RkInt dit ->
  rl_variants (ty_layout L r) = VaSingle i -> translates L r t ->
  exists tv discr v, t = TEnum tv dit discr (lsize L r) (lalign L r) /\ vs !! i = Some v /\
  forall (P S : Type) (accessor : S -> Offset -> Size -> Outcome (list (AByte P) * S)) (s : S),
    decode_discriminant x86_64 accessor discr s = Ret (Some (int_from_bits (fst v) dit), s).
Proof.
  intros L ht r dty dit vs i t Hok Hk Hdk Hv Ht.
  destruct (enum_translates _ _ _ _ _ _ Hok Hk Ht) as (dit' & tv & discr & Hdk' & Hl & Hnd & Htr & -> & Hs & _).
  rewrite Hdk in Hdk'. injection Hdk' as <-. destruct (Hs _ Hv) as (v & Hi & ->). exists tv, (DKnown (int_from_bits (fst v) dit)), v. done.
Qed.
Print Assumptions C84_read_single_partial.

(** Each variant has an entry under its discriminant (which discriminant_for_variant returns): the tuple of its fields, and a tagger that writes a tag which means
    the variant. Only the untagged variant has no tag. *)
Theorem C84_variants_partial : forall (L : RTypes) (ht : TraitName -> bool) (r dty : RTy) (dit tit : IntType) (vs : list (Z * list RTy))
    (tag : RTag) (enc : RTagEncoding) (tf : nat) (shapes : list (list Offset)) (off : Offset) (t : Ty),
  ty_ok L ht True r -> ty_kind L r = RkEnum dty vs -> ty_kind L dty = RkInt dit ->
  rl_variants (ty_layout L r) = VaMultiple tag enc tf shapes ->
  ty_kind L (tg_int_ty tag) = RkInt tit -> rl_offsets (ty_layout L r) !! tf = Some off -> translates L r t ->
  exists tv discr, t = TEnum tv dit discr (lsize L r) (lalign L r) /\ length tv = length vs /\
  forall i v, vs !! i = Some v ->
    (exists n, forall m, (n <= m)%nat -> variant_discriminant L m r i = Ret (int_from_bits (fst v) dit)) /\
    exists fs tagger shape,
    map_get tv (int_from_bits (fst v) dit) = Some (TTuple fs (mkHead (lsize L r) (lalign L r) None) None, tagger) /\
    shapes !! i = Some shape /\ translates_fields L shape (snd v) fs /\
    ((exists z, tagger = [(off, (tit, z))] /\ can_represent tit z = true /\ tag_means dit tit tag vs enc (z mod tag_values tit) (Some i)) \/
     (tagger = [] /\ exists first last ns, enc = TeNiche i first last ns)).
Proof.
  intros L ht r dty dit tit vs tag enc tf shapes off t Hok Hk Hdk Hv Htk Hof Ht.
  destruct (enum_translates _ _ _ _ _ _ Hok Hk Ht) as (dit' & tv & discr & Hdk' & Hl & Hnd & Htr & -> & _ & Hm).
  rewrite Hdk in Hdk'. injection Hdk' as <-. destruct (Hm _ _ _ _ Hv) as (tit' & off' & Htk' & Hof' & Hti & Hsz & Hoff & He & Hform).
  rewrite Htk in Htk'. injection Htk' as <-. rewrite Hof in Hof'. injection Hof' as <-.
  destruct Hform as (fls & Hlen & E1 & E2 & Hfls). cbn in E1. exists tv, discr. split; [done|]. split.
  { rewrite E1, map_length, zip_with_length, enumerate_length. lia. }
  intros i v Hi. destruct (lookup_lt_is_Some_2 fls i) as [fs Hfs]; [rewrite Hlen; by eapply lookup_lt_Some|].
  pose proof (in_zip_enum vs fls i v fs Hi Hfs) as Hx. destruct (Hfls _ _ _ Hi Hfs) as (HF & Hsh & _).
  pose proof (multi_facts L r dit vs tag tit off Hti enc He ((i, v), fs) Hi) as (Ek & Et & _). cbn [fst snd] in Ek, Et.
  set (kv := multi_kv L r dit tit off enc) in *.
  split. { exists 1%nat. intros [|m] Hge; [lia|]. unfold variant_discriminant, int_ty_of. rewrite Hk. cbn [translate_ty]. rewrite Hdk. cbn. by rewrite Hi. }
  exists fs, (snd (snd (kv ((i, v), fs)))), fs.*1. split; [|split; [done|split; [by eapply fields_are|]]].
  - rewrite <- Ek. apply map_get_nodup.
    + rewrite E1, map_map. erewrite List.map_ext_in; [apply (discr_keys dit vs Hnd fls)|]. intros x Hin. apply zip_enum_in in Hin as (j & Hj & Hvj & _).
      rewrite <- Hj in Hvj. by apply (multi_facts L r dit vs tag tit off Hti enc He x).
    + rewrite E1. pose proof (in_map kv _ _ Hx) as Hin. change (b_tuple_ty fs (rl_size (ty_layout L r)) (rl_align (ty_layout L r))) with
        (TTuple fs (mkHead (lsize L r) (lalign L r) None) None) in Et. rewrite <- Et, <- !surjective_pairing. exact Hin.
  - subst kv. destruct v as [bits tys]. destruct enc as [|u first last ns]; cbn [multi_kv fst snd].
    + left. eexists. split; [reflexivity|]. split; [apply (He (bits, tys)); by eapply elem_of_list_lookup_2|]. by eapply tm_direct.
    + pose proof He as (Hu & Hfl & Hd & _ & _ & _ & _ & _ & _ & Hplain). destruct (Hplain I i) as [Hin Hri]; [by eapply lookup_lt_Some|].
      destruct (Hd _ _ Hi) as [_ Hb]. cbn in Hb. rewrite Hb, (bits_id tit Hti) by done.
      destruct (Nat.eqb_spec u i) as [->|Hne]; cbn [negb]; [right; eauto|]. left. eexists. split; [reflexivity|]. split; [apply (tag_of_in tit first ns i)|].
      fold (tag_of tit first ns i). rewrite tag_of_bits. apply tm_tagged; [apply Hin|]; congruence.
Qed.
Print Assumptions C84_variants_partial.

(** ** Concrete types *)

(** types given by a list: the type [r] is the [r]-th *)
Definition types_of (l : list (RKind * RLayout)) : RTypes :=
  let get (r : RTy) := nth (N.to_nat r) l (RkOther, mkRLayout 0 align_one true false [] VaEmpty) in
  mkRTypes (fun r => fst (get r)) (fun r => snd (get r)) (fun _ => true) (fun _ => true) 0%N.
Definition lay (s log : N) (offs : list Offset) : RLayout := mkRLayout s (mkAlign log) true false offs (VaSingle 0).
Definition lay_enum (s log : N) (offs : list Offset) (va : RVariants) : RLayout := mkRLayout s (mkAlign log) true false offs va.
Definition unsized_lay : RLayout := mkRLayout 0 align_one false false [] (VaSingle 0).
Definition u8i : IntType := mkIntTy Unsigned 1.
Definition isize_i : IntType := mkIntTy Signed 8.

(** 0: (), 1: u8, 2: isize, 3: bool, 4: Option<bool>, 5: [u8], 6: &[u8], 7: enum { X(u32) = 7, Y = -1 } with a tag of type i8,
    8: u32, 9: i8, 10: struct { a: Option<bool>, b: &[u8], c: enum 7 } with reordered fields, 11: [struct 10; 3] *)
Definition some_types : RTypes := types_of
  [(RkTuple [], lay 0 0 []);
   (RkInt u8i, lay 1 0 []);
   (RkInt isize_i, lay 8 3 []);
   (RkBool, lay 1 0 []);
   (RkEnum 2 [(0, []); (1, [3%N])], lay_enum 1 0 [0%N] (VaMultiple (mkRTag 1 1 0 2) (TeNiche 1 0 0 2) 0 [[]; [0%N]]));
   (RkSlice 1, unsized_lay);
   (RkRef Immutable 5, lay 16 3 []);
   (RkEnum 2 [(7, [8%N]); (2 ^ 64 - 1, [])], lay_enum 8 2 [0%N] (VaMultiple (mkRTag 9 1 255 7) TeDirect 0 [[4%N]; []]));
   (RkInt (mkIntTy Unsigned 4), lay 4 2 []);
   (RkInt (mkIntTy Signed 1), lay 1 0 []);
   (RkStruct false [4%N; 6%N; 7%N], lay 32 3 [24%N; 0%N; 16%N]);
   (RkArray 10 3, lay 96 3 [])].

Ltac in_list H := repeat (apply elem_of_cons in H as [->|H]); [..|by apply elem_of_nil in H].
Ltac ints := match goal with |- rust_int _ => unfold rust_int; cbn [it_size]; repeat (apply elem_of_cons; (left; reflexivity) || right); fail end.
Fixpoint all_pairs {A} (f : A -> A -> bool) (l : list A) : bool := match l with [] => true | x :: l => forallb (f x) l && all_pairs f l end.
Lemma all_pairs_ok {A} (f : A -> A -> bool) (Q : A -> A -> Prop) l : (forall x y, f x y = true -> Q x y) -> all_pairs f l = true -> ForallOrdPairs Q l.
Proof.
  intros HQ. induction l as [|x l IH]; intros H; constructor; cbn in H; apply andb_true_iff in H as [H1 H2]; [|by apply IH].
  rewrite forallb_forall in H1. apply List.Forall_forall. auto.
Qed.
(** a test for [fields_ok] *)
Definition fields_test (strong : bool) (L : RTypes) (offs : list Offset) (tys : list RTy) (size : Size) : bool :=
  let fs := zip offs (List.map (lsize L) tys) in
  (length offs =? length tys)%nat && forallb (fun f => fst f + snd f <=? size)%N fs &&
  all_pairs (fun f g => ((fst f + snd f <=? fst g) || (fst g + snd g <=? fst f))%N && (negb strong || negb (fst f =? fst g)%N || (snd f =? 0)%N)) fs.
Lemma fields_test_ok strong (plain : Prop) L offs tys size : (plain -> strong = true) -> fields_test strong L offs tys size = true -> fields_ok L plain offs tys size.
Proof.
  intros Hp H. unfold fields_test in H. cbv zeta in H. apply andb_true_iff in H as [H H3]. apply andb_true_iff in H as [H1 H2]. split; [by apply Nat.eqb_eq|]. cbv zeta. split.
  - rewrite forallb_forall in H2. apply List.Forall_forall. intros f Hf. apply N.leb_le. by apply H2.
  - eapply all_pairs_ok; [|exact H3]. cbn beta. intros x y E. split; [unfold apart; lia|]. intros Hpl Ex. rewrite (Hp Hpl) in E. cbn in E. lia.
Qed.
Ltac fields := apply (fields_test_ok true); [done|by vm_compute].
Ltac lookups i H := destruct i as [|[|[|i]]]; cbn in H; try discriminate H; injection H as <-.

Lemma some_option plain : ty_ok some_types (fun _ => false) plain 4.
Proof.
  eapply (ok_enum some_types _ plain 4 2 isize_i); [reflexivity|split; [done|split; [by vm_compute|done]]|reflexivity|ints| | | |].
  - cbn. apply (bool_decide_unpack _). by vm_compute.
  - intros v ty Hv Ht. in_list Hv; in_list Ht. done.
  - intros v ty Hv Ht. in_list Hv; in_list Ht. eapply ok_bool; [reflexivity|split; [done|split; [done|done]]].
  - eapply (vo_multiple some_types plain 4 isize_i _ (mkRTag 1 1 0 2) _ 0 _ u8i 0%N); [reflexivity|ints|reflexivity|reflexivity|done| |].
    + constructor; [fields|constructor; [fields|constructor]].
    + cbn [encoding_ok]. split; [cbn; lia|]. split; [cbn; lia|]. split.
      { intros i v Hi. lookups i Hi; split; by vm_compute. }
      repeat (split; [by vm_compute|]). split; [|split].
      * intros i Hi. assert (i = 0)%nat as -> by lia. by vm_compute.
      * intros i v Hi Hu Hn. lookups i Hi; lia.
      * intros _ i Hi. cbn in Hi. destruct i as [|[|i]]; [| |lia]; (split; [intros; lia|by vm_compute]).
Qed.

Lemma some_tagged plain : ty_ok some_types (fun _ => false) plain 7.
Proof.
  eapply (ok_enum some_types _ plain 7 2 isize_i); [reflexivity|split; [done|split; [by vm_compute|done]]|reflexivity|ints| | | |].
  - cbn. apply (bool_decide_unpack _). by vm_compute.
  - intros v ty Hv Ht. in_list Hv; in_list Ht. done.
  - intros v ty Hv Ht. in_list Hv; in_list Ht. eapply (ok_int some_types _ _ 8 (mkIntTy Unsigned 4)); [reflexivity|ints|split; [done|split; [done|done]]].
  - eapply (vo_multiple some_types plain 7 isize_i _ (mkRTag 9 1 255 7) _ 0 _ (mkIntTy Signed 1) 0%N); [reflexivity|ints|reflexivity|reflexivity|done| |].
    + constructor; [fields|constructor; [fields|constructor]].
    + intros v Hv. in_list Hv; by vm_compute.
Qed.
Lemma some_slice plain : pointee_ok some_types (fun _ => false) plain 5.
Proof. eapply (pk_slice some_types _ _ 5 1); [done|reflexivity|split; [done|split; [by vm_compute|done]]|by eapply co_int]. Qed.
Lemma some_struct plain : ty_ok some_types (fun _ => false) plain 10.
Proof.
  eapply (ok_fields some_types _ _ 10 [4; 6; 7]%N); [right; left; by exists false|split; [done|split; [by vm_compute|done]]|fields| |].
  - intros ty Ht. in_list Ht; done.
  - intros ty Ht. in_list Ht; [apply some_option| |apply some_tagged].
    eapply (ok_ptr some_types _ _ 6 5); [right; left; by eexists|apply some_slice|done|]. intros _. split; [done|split; [done|done]].
Qed.

(** An array of structs with a niche-encoded enum, a tagged enum and a reference to a slice meets the hypotheses of C83. *)
Example C83_hyps : ty_ok some_types (fun _ => false) True 11 /\ pointee_ok some_types (fun _ => false) True 5.
Proof.
  split; [|apply some_slice]. eapply (ok_array some_types _ _ 11 10 3); [reflexivity|split; [done|split; [by vm_compute|done]]|done|done|done|apply some_struct].
Qed.
(** The tags of Option<bool>: 2 means None, 0 and 1 mean Some, all else is invalid; those of the enum 7. *)
Example C84_hyps :
  ty_ok some_types (fun _ => false) True 4 /\ ty_ok some_types (fun _ => false) True 7 /\
  (exists t, translates some_types 4 t) /\ (exists t, translates some_types 7 t) /\
  tag_means isize_i u8i (mkRTag 1 1 0 2) [(0, []); (1, [3%N])] (TeNiche 1 0 0 2) (le_decode [x02]) (Some 0%nat) /\
  tag_means isize_i u8i (mkRTag 1 1 0 2) [(0, []); (1, [3%N])] (TeNiche 1 0 0 2) (le_decode [x01]) (Some 1%nat) /\
  tag_means isize_i u8i (mkRTag 1 1 0 2) [(0, []); (1, [3%N])] (TeNiche 1 0 0 2) (le_decode [x80]) None /\
  tag_means isize_i (mkIntTy Signed 1) (mkRTag 9 1 255 7) [(7, [8%N]); (2 ^ 64 - 1, [])] TeDirect (le_decode [xff]) (Some 1%nat).
Proof.
  split; [apply some_option|]. split; [apply some_tagged|].
  split; [destruct (C83_types_partial _ _ _ (some_option True)) as (t & l & H & _); by exists t|].
  split; [destruct (C83_types_partial _ _ _ (some_tagged True)) as (t & l & H & _); by exists t|].
  split; [|split; [|split]].
  - apply (tm_tagged isize_i u8i (mkRTag 1 1 0 2) [(0, []); (1, [3%N])] 1 0 0 2 0); lia.
  - apply tm_untagged; [by vm_compute|]. intros i Hi. assert (i = 0)%nat as -> by lia. by vm_compute.
  - apply tm_outside. vm_compute. intros [_ H]. by apply H.
  - eapply (tm_direct isize_i (mkIntTy Signed 1)); [reflexivity|by vm_compute].
Qed.

(** *** Where the full claims fail *)

(** A field before a zero-sized field at the same offset: struct { a: u32, b: () }, 1: u32, 2: the struct *)
Definition zero_types : RTypes := types_of [(RkTuple [], lay 0 0 []); (RkInt (mkIntTy Unsigned 4), lay 4 2 []); (RkStruct false [1%N; 0%N], lay 4 2 [0%N; 0%N])].
Theorem C83_zero_sized_refuted : exists L r t, ty_ok L (fun _ => false) False r /\ translates L r t /\
  ty_check_wf x86_64 (fun _ => false) t = throw_ill_formed "Type::Tuple: overlapping fields".
Proof.
  exists zero_types, 2%N. eexists. split; [|split; [exists 2%nat; intros [|[|m]] Hm; [lia|lia|]; cbn; reflexivity|by vm_compute]].
  eapply (ok_fields zero_types _ _ 2 [1; 0]%N); [right; left; by exists false|split; [done|split; [by vm_compute|done]]|apply (fields_test_ok false); [done|by vm_compute]| |].
  - intros ty Ht. in_list Ht; done.
  - intros ty Ht. in_list Ht.
    + eapply (ok_int zero_types _ _ 1 (mkIntTy Unsigned 4)); [reflexivity|ints|split; [done|split; [done|done]]].
    + eapply (ok_fields zero_types _ _ 0 []); [by left|split; [done|split; [by vm_compute|done]]|apply (fields_test_ok false); [done|by vm_compute]| |]; intros ty Ht; by apply elem_of_nil in Ht.
Qed.
Print Assumptions C83_zero_sized_refuted.

(** An enum all of whose variants are uninhabited: enum { A(!) }, 1: !, 2: isize, 3: the enum. The translation panics. *)
Definition never_lay : RLayout := mkRLayout 0 align_one true true [] VaEmpty.
Definition empty_types : RTypes := types_of [(RkTuple [], lay 0 0 []); (RkNever, never_lay); (RkInt isize_i, lay 8 3 []); (RkEnum 2 [(0, [1%N])], never_lay)].
Theorem C83_empty_refuted : exists L r, ty_ok L (fun _ => false) False r /\ forall n, (1 < n)%nat -> translate_ty L n r = Panic.
Proof.
  exists empty_types, 3%N. split; [|intros [|[|m]] Hm; [lia|lia|]; reflexivity].
  eapply (ok_enum empty_types _ _ 3 2 isize_i); [reflexivity|split; [done|split; [by vm_compute|done]]|reflexivity|ints| | | |].
  - cbn. apply (bool_decide_unpack _). by vm_compute.
  - intros v ty Hv Ht. in_list Hv; in_list Ht. done.
  - intros v ty Hv Ht. in_list Hv; in_list Ht. eapply ok_never; [reflexivity|split; [done|split; [done|done]]].
  - apply (vo_empty empty_types); [|done]. intros v Hv. in_list Hv. exists 1%N. split; [left|done].
Qed.
Print Assumptions C83_empty_refuted.

(** A pointer to a pattern type: &(u32 is 1..), 1: u32, 2: the pattern type, 3: the reference. There is no translation. *)
Definition pattern_types : RTypes := types_of [(RkTuple [], lay 0 0 []); (RkInt (mkIntTy Unsigned 4), lay 4 2 []); (RkPat 1, lay 4 2 []); (RkRef Immutable 2, lay 8 3 [])].
Theorem C83_pattern_refuted : exists L r, ty_ok L (fun _ => false) False r /\ forall n t, translate_ty L n r <> Ret t.
Proof.
  exists pattern_types, 3%N. split; [|intros [|[|m]] t; cbn; discriminate].
  eapply (ok_ptr pattern_types _ _ 3 2); [right; left; by eexists| |intros _; split; [done|split; [done|done]]|done].
  apply pk_sized; [split; [done|split; [by vm_compute|done]]|]. apply (co_pat pattern_types False 2 1); [reflexivity|by intros []].
Qed.
Print Assumptions C83_pattern_refuted.

(** A pointer to an array of one cell: &[UnsafeCell<u8>; 1], 1: u8, 2: UnsafeCell<u8>, 3: the array, 4: the reference.
    What the translation says about the pointee is not well-formed: it has a cell past the end of the array (C57). *)
Definition cell_types : RTypes := types_of [(RkTuple [], lay 0 0 []); (RkInt u8i, lay 1 0 []); (RkStruct true [1%N], lay 1 0 [0%N]); (RkArray 2 1, lay 1 0 []); (RkRef Immutable 3, lay 8 3 [])].
Theorem C83_array_refuted : exists L r t, ty_ok L (fun _ => false) False r /\ translates L r t /\
  ty_check_wf x86_64 (fun _ => false) t = throw_ill_formed "LayoutStrategy: invalid cells".
Proof.
  exists cell_types, 4%N. eexists. split; [|split; [exists 3%nat; intros [|[|[|m]]] Hm; [lia|lia|lia|]; cbn; reflexivity|by vm_compute]].
  eapply (ok_ptr cell_types _ _ 4 3); [right; left; by eexists| |intros _; split; [done|split; [done|done]]|done].
  apply pk_sized; [split; [done|split; [by vm_compute|done]]|]. eapply (co_array cell_types False 3 2 1); [reflexivity|done| |done].
  apply (co_cell cell_types False 2 [1%N]); [reflexivity|by intros []].
Qed.
Print Assumptions C83_array_refuted.

(** Niche-encoded enums with absent variants: 1: !, 2: isize, 3: bool, 4: u8, 5: enum { A(bool), B, C(!) },
    6: enum { C(!), A(bool), B } *)
Definition absent_types : RTypes := types_of
  [(RkTuple [], lay 0 0 []);
   (RkNever, never_lay);
   (RkInt isize_i, lay 8 3 []);
   (RkBool, lay 1 0 []);
   (RkInt u8i, lay 1 0 []);
   (RkEnum 2 [(0, [3%N]); (1, []); (2, [1%N])], lay_enum 1 0 [0%N] (VaMultiple (mkRTag 4 1 0 2) (TeNiche 0 1 1 2) 0 [[0%N]; []; [0%N]]));
   (RkEnum 2 [(0, [1%N]); (1, [3%N]); (2, [])], lay_enum 1 0 [0%N] (VaMultiple (mkRTag 4 1 0 2) (TeNiche 1 2 2 2) 0 [[0%N]; [0%N]; []]))].
Lemma absent_ok r : r = 5%N \/ r = 6%N -> ty_ok absent_types (fun _ => false) False r.
Proof.
  intros Hr. assert (H13 : forall ty, ty ∈ [1; 3]%N -> lsized absent_types ty /\ ty_ok absent_types (fun _ => false) False ty).
  { intros ty Ht. in_list Ht; (split; [done|]).
    - eapply ok_never; [reflexivity|split; [done|split; [done|done]]].
    - eapply ok_bool; [reflexivity|split; [done|split; [done|done]]]. }
  destruct Hr as [-> | ->].
  - eapply (ok_enum absent_types _ _ 5 2 isize_i); [reflexivity|split; [done|split; [by vm_compute|done]]|reflexivity|ints| | | |].
    + cbn. apply (bool_decide_unpack _). by vm_compute.
    + intros v ty Hv Ht. in_list Hv; in_list Ht; apply H13; apply (bool_decide_unpack _); by vm_compute.
    + intros v ty Hv Ht. in_list Hv; in_list Ht; apply H13; apply (bool_decide_unpack _); by vm_compute.
    + eapply (vo_multiple absent_types _ 5 isize_i _ (mkRTag 4 1 0 2) _ 0 _ u8i 0%N); [reflexivity|ints|reflexivity|reflexivity|done| |].
      * repeat (constructor; [fields|]). constructor.
      * cbn [encoding_ok]. split; [cbn; lia|]. split; [cbn; lia|]. split.
        { intros i v Hi. lookups i Hi; split; by vm_compute. }
        repeat (split; [by vm_compute|]). split; [|split; [|done]].
        -- intros i Hi. assert (i = 1)%nat as -> by lia. by vm_compute.
        -- intros i v Hi Hu Hn. lookups i Hi; try lia. exists 1%N. split; [left|done].
  - eapply (ok_enum absent_types _ _ 6 2 isize_i); [reflexivity|split; [done|split; [by vm_compute|done]]|reflexivity|ints| | | |].
    + cbn. apply (bool_decide_unpack _). by vm_compute.
    + intros v ty Hv Ht. in_list Hv; in_list Ht; apply H13; apply (bool_decide_unpack _); by vm_compute.
    + intros v ty Hv Ht. in_list Hv; in_list Ht; apply H13; apply (bool_decide_unpack _); by vm_compute.
    + eapply (vo_multiple absent_types _ 6 isize_i _ (mkRTag 4 1 0 2) _ 0 _ u8i 0%N); [reflexivity|ints|reflexivity|reflexivity|done| |].
      * repeat (constructor; [fields|]). constructor.
      * cbn [encoding_ok]. split; [cbn; lia|]. split; [cbn; lia|]. split.
        { intros i v Hi. lookups i Hi; split; by vm_compute. }
        repeat (split; [by vm_compute|]). split; [|split; [|done]].
        -- intros i Hi. assert (i = 2)%nat as -> by lia. by vm_compute.
        -- intros i v Hi Hu Hn. lookups i Hi; try lia. exists 1%N. split; [left|done].
Qed.
Definition type_of (L : RTypes) (r : RTy) : Ty := match translate_ty L 5 r with Ret t => t | _ => TBool end.

(** enum { A(bool), B, C(!) }: the absent variant C gets a tag outside of the valid range of the tag; the type is ill-formed. *)
Theorem C83_absent_refuted : exists L r t, ty_ok L (fun _ => false) False r /\ translates L r t /\
  ty_check_wf x86_64 (fun _ => false) t = throw_ill_formed "Discriminator: branch ranges overlap".
Proof.
  exists absent_types, 5%N, (type_of absent_types 5). split; [apply absent_ok; by left|]. split; [|by vm_compute].
  exists 3%nat. intros [|[|[|m]]] Hm; [lia|lia|lia|]. vm_compute. reflexivity.
Qed.
Print Assumptions C83_absent_refuted.

(** enum { C(!), A(bool), B }: the absent variant C gets the tag of A(false), so A(false) is read as C. *)
Theorem C84_absent_refuted : exists L r t tv dit tit tag vs enc discr, ty_ok L (fun _ => false) False r /\ translates L r t /\
  ty_check_wf x86_64 (fun _ => false) t = Ret tt /\ t = TEnum tv dit discr (lsize L r) (lalign L r) /\
  ty_kind L r = RkEnum 2 vs /\ rl_variants (ty_layout L r) = VaMultiple tag enc 0 [[0%N]; [0%N]; []] /\ ty_kind L (tg_int_ty tag) = RkInt tit /\
  tag_means dit tit tag vs enc (le_decode [x00]) (Some 1%nat) /\
  decode_discriminant (P := unit) x86_64 (fun s _ _ => Ret ([Init x00 None], s)) discr tt = Ret (Some 0, tt).
Proof.
  exists absent_types, 6%N, (type_of absent_types 6). eexists _, isize_i, u8i, (mkRTag 4 1 0 2), _, (TeNiche 1 2 2 2), _.
  split; [apply absent_ok; by right|]. split; [exists 3%nat; intros [|[|[|m]]] Hm; [lia|lia|lia|]; vm_compute; reflexivity|].
  split; [by vm_compute|]. split; [vm_compute; reflexivity|]. split; [reflexivity|]. split; [reflexivity|]. split; [reflexivity|]. split; [|by vm_compute].
  apply tm_untagged; [by vm_compute|]. intros i Hi. assert (i = 2)%nat as -> by lia. by vm_compute.
Qed.
Print Assumptions C84_absent_refuted.

(** A signed tag with many variants: enum { A(Ordering), V1, …, V199 } in the niche of an i8.
    1: i8, 2: isize, 3: Ordering, 4: the enum *)
Definition many : list (Z * list RTy) := List.map (fun i => (Z.of_nat i, if (i =? 0)%nat then [3%N] else [])) (seq 0 200).
Definition many_tag : RTag := mkRTag 1 1 255 200.
Definition many_enc : RTagEncoding := TeNiche 0 1 199 2.
Definition signed_types : RTypes := types_of
  [(RkTuple [], lay 0 0 []);
   (RkInt (mkIntTy Signed 1), lay 1 0 []);
   (RkInt isize_i, lay 8 3 []);
   (RkEnum 1 [(255, []); (0, []); (1, [])], lay_enum 1 0 [0%N] (VaMultiple (mkRTag 1 1 255 1) TeDirect 0 [[]; []; []]));
   (RkEnum 2 many, lay_enum 1 0 [0%N] (VaMultiple many_tag many_enc 0 (List.map (fun v => List.map (fun _ => 0%N) (snd v)) many)))].
Lemma many_lookup i v : many !! i = Some v -> (i < 200)%nat /\ v = (Z.of_nat i, if (i =? 0)%nat then [3%N] else []).
Proof.
  unfold many. change (List.map ?f ?l) with (f <$> l). rewrite list_lookup_fmap. destruct (seq 0 200 !! i) as [j|] eqn:E; [|done].
  apply lookup_seq in E as [-> ?]. cbn [fmap option_fmap option_map]. intros [= <-]. done.
Qed.
Lemma many_fields v ty : v ∈ many -> ty ∈ snd v -> ty = 3%N.
Proof.
  intros Hv Ht. apply elem_of_list_lookup in Hv as [i Hi]. apply many_lookup in Hi as [_ ->]. cbn in Ht. destruct (i =? 0)%nat; [in_list Ht; done|by apply elem_of_nil in Ht].
Qed.
Lemma signed_ordering : ty_ok signed_types (fun _ => false) False 3.
Proof.
  eapply (ok_enum signed_types _ _ 3 1 (mkIntTy Signed 1)); [reflexivity|split; [done|split; [by vm_compute|done]]|reflexivity|ints| | | |].
  - cbn. apply (bool_decide_unpack _). by vm_compute.
  - intros v ty Hv Ht. in_list Hv; in_list Ht.
  - intros v ty Hv Ht. in_list Hv; in_list Ht.
  - eapply (vo_multiple signed_types _ 3 _ _ (mkRTag 1 1 255 1) _ 0 _ (mkIntTy Signed 1) 0%N); [reflexivity|ints|reflexivity|reflexivity|done| |].
    + repeat (constructor; [fields|]). constructor.
    + intros v Hv. in_list Hv; by vm_compute.
Qed.
Lemma signed_ok : ty_ok signed_types (fun _ => false) False 4.
Proof.
  eapply (ok_enum signed_types _ _ 4 2 isize_i); [reflexivity|split; [done|split; [by vm_compute|done]]|reflexivity|ints| | | |].
  - apply (bool_decide_unpack _). by vm_compute.
  - intros v ty Hv Ht. by rewrite (many_fields v ty Hv Ht).
  - intros v ty Hv Ht. rewrite (many_fields v ty Hv Ht). apply signed_ordering.
  - eapply (vo_multiple signed_types _ 4 isize_i _ many_tag _ 0 _ (mkIntTy Signed 1) 0%N); [reflexivity|ints|reflexivity|reflexivity|done| |].
    + assert (G : Forall (fun v => fields_test true signed_types (List.map (fun _ => 0%N) (snd v)) (snd v) 1 = true) many).
      { apply List.Forall_forall. intros v Hv. apply elem_of_list_In, elem_of_list_lookup in Hv as [i Hi]. apply many_lookup in Hi as [_ ->]. cbn [snd]. by destruct (i =? 0)%nat. }
      revert G. generalize many. intros l. induction l as [|v l IH]; intros G; constructor.
      * inversion G as [|? ? G1 G2]; subst. by apply (fields_test_ok true).
      * apply IH. by inversion G.
    + cbn [encoding_ok many_enc]. replace (length many) with 200%nat by reflexivity. split; [lia|]. split; [lia|]. split.
      { intros i v Hi. apply many_lookup in Hi as [Hi ->]. cbn [fst]. split; [|done]. apply (bits_id isize_i); [ints|]. apply (tag_bounds isize_i); [ints|].
        cbn [isize_i it_signed]. change (tag_values isize_i) with (2 ^ 64). lia. }
      repeat (split; [by vm_compute|]). split; [|split; [|done]].
      * intros i Hi. unfold wrapping_range, niche_bits, many_tag. cbn [tg_start tg_end]. change (tag_values (mkIntTy Signed 1)) with 256. change (255 <=? 200) with false. cbn iota.
        left. rewrite Z.mod_small by lia. lia.
      * intros i v Hi Hu Hn. apply many_lookup in Hi as [Hi _]. lia.
Qed.

(** Variant 128 has the discriminant 128 but is entered in the type as -128. *)
Theorem C84_signed_refuted : exists L r t tv discr dit s a, ty_ok L (fun _ => false) False r /\ translates L r t /\
  ty_check_wf x86_64 (fun _ => false) t = Ret tt /\ t = TEnum tv dit discr s a /\
  variant_discriminant L 5 r 128 = Ret 128 /\ map_get tv 128 = None /\ is_Some (map_get tv (-128)).
Proof.
  exists signed_types, 4%N, (type_of signed_types 4). eexists _, _, isize_i, _, _.
  split; [apply signed_ok|]. split; [exists 3%nat; intros [|[|[|m]]] Hm; [lia|lia|lia|]; vm_compute; reflexivity|].
  split; [by vm_compute|]. split; [vm_compute; reflexivity|]. split; [by vm_compute|]. split; [by vm_compute|]. vm_compute. by eexists.
Qed.
Print Assumptions C84_signed_refuted.
