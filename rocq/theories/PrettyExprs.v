(** The reader of PrettyRead.v gets back the expressions that were printed. *)
From Coq Require Import Ascii String DecimalString.
From Verif Require Export PrettyTexts.
Local Open Scope string_scope.

(** ** What the reader needs to know about expressions *)

Definition composite (t : Ty) : Prop := match t with TTuple _ _ _ | TUnion _ _ _ _ | TEnum _ _ _ _ _ => True | _ => False end.
Definition no_tuple (e : ValueExpr) : Prop := match e with ETuple _ _ => False | _ => True end.
Definition no_global (e : ValueExpr) : Prop := match e with EConstant (KGlobalPointer _) _ => False | _ => True end.
Fixpoint ok_value (e : ValueExpr) : Prop :=
  match e with
  | EConstant _ _ => True
  | ETuple es _ => (fix all es := match es with [] => True | e :: r => ok_value e /\ all r end) es
  | EUnion _ e t => composite t /\ ok_value e
  | EVariant _ e t => composite t /\ ok_value e
  | EGetDiscriminant p | ELoad p | EAddrOf p _ => ok_place p
  | EUnOp _ e => ok_value e
  | EBinOp op e1 e2 => ok_value e1 /\ ok_value e2 /\
      match op with
      | BInt o => no_tuple e1 /\ no_tuple e2 /\ (o = IAdd -> no_global e1)
      | BIntWithOverflow _ | BRel _ => no_tuple e1 /\ no_tuple e2
      | _ => True
      end
  end
with ok_place (p : PlaceExpr) : Prop :=
  match p with
  | PLocal _ => True
  | PDeref e _ => ok_value e
  | PField p _ | PDowncast p _ => ok_place p
  | PIndex p e => ok_place p /\ ok_value e
  end.

(** ** The end of an expression *)

Record ends (r : string) : Prop := {
  en_digit : nodigit r;
  en_op : read_op r = None;
  en_dot : eat "." r = None;
  en_index : eat "[" r = None;
}.
Record pends (r : string) : Prop := {
  pe_digit : nodigit r;
  pe_dot : eat "." r = None;
  pe_index : eat "[" r = None;
  pe_as : eat " as variant " r = None;
}.
Ltac en := first [assumption|split; reflexivity].
Definition special : list string := ["&raw "; "&mut "; "&"; "-("; "!("; "count_ones("; "vtable_lookup<m"; "T"; "("].
Definition nospecial (s : string) : Prop := forall r, nodigit r -> Forall (fun k => eat k (s ++ r) = None) special.

Lemma alt_none {A} (ks : list (string * Reader A)) d s : Forall (fun k => eat k s = None) (List.map fst ks) -> alt ks d s = d s.
Proof. induction ks as [|[k f] ks IH]; cbn [List.map fst alt]; [done|]. inversion 1 as [|? ? Hk Hks]; subst. rewrite Hk. by apply IH. Qed.

Lemma digit_cases c d : digit_value c = Some d -> In c ["0"; "1"; "2"; "3"; "4"; "5"; "6"; "7"; "8"; "9"]%char.
Proof.
  intros H. pose proof (digit_bound _ _ H) as Hb. unfold digit_value in H. destruct (_ && _) eqn:E; [|done]. injection H as <-.
  apply andb_prop in E as [E1 E2]. apply N.leb_le in E1, E2. rewrite <- (Ascii.ascii_N_embedding c). set (n := N_of_ascii c) in *. clearbody n. clear Hb.
  assert (n = 48 \/ n = 49 \/ n = 50 \/ n = 51 \/ n = 52 \/ n = 53 \/ n = 54 \/ n = 55 \/ n = 56 \/ n = 57)%N as Hn by lia. clear E1 E2.
  cbn [In]. repeat (destruct Hn as [->|Hn]; [vm_compute; tauto|]). subst n. vm_compute; tauto.
Qed.
Lemma nat_head n r : exists c s, show_nat n ++ r = String c s /\ In c ["0"; "1"; "2"; "3"; "4"; "5"; "6"; "7"; "8"; "9"]%char.
Proof.
  unfold show_nat, show_int. destruct (int_decimal (Z.of_N n)) as [[_ H]|[H _]]; [|lia]. destruct (decimal_head _ _ H) as (c & s & d & -> & Ed).
  exists c, (s ++ r). split; [done|]. by eapply digit_cases.
Qed.
Lemma int_head i r : exists c s, show_int i ++ r = String c s /\
  (In c ["0"; "1"; "2"; "3"; "4"; "5"; "6"; "7"; "8"; "9"]%char \/
   c = "-"%char /\ exists c' s', s = String c' s' /\ In c' ["0"; "1"; "2"; "3"; "4"; "5"; "6"; "7"; "8"; "9"]%char).
Proof.
  unfold show_int. destruct (int_decimal i) as [[_ H]|[_ (s & -> & H)]]; destruct (decimal_head _ _ H) as (c & s0 & d & E & Ed); rewrite E; do 2 eexists; (split; [reflexivity|]).
  - left. by eapply digit_cases.
  - right. split; [done|]. do 2 eexists. split; [reflexivity|]. by eapply digit_cases.
Qed.
Lemma read_suffix_stop rv k p r : eat "." r = None -> eat "[" r = None -> read_suffix rv k p r = Some (p, r).
Proof. intros H1 H2. destruct k; [done|]. cbn [read_suffix alt]. by rewrite H1, H2. Qed.

Section Exprs.
  Variable F : list Ty.
  Notation rv := (read_value F).
  Notation ra := (read_atom F).
  Notation rp := (read_place F).
  Notation rpa := (read_patom F).

  Definition reads (rd : nat -> Reader ValueExpr) (e : string -> Prop) (n0 : nat) (s : string) (x : ValueExpr) : Prop :=
    forall n r, (n0 <= n)%nat -> e r -> rd n (s ++ r) = Some (x, r).
  Definition good_text (f : FmtExpr) (x : ValueExpr) (n0 : nat) : Prop :=
    match f with
    | FAtomic s => nospecial s /\ reads ra nodigit n0 s x
    | FNonAtomic s => reads rv ends n0 s x
    end.
  Definition value_text (e : ValueExpr) (f : FmtExpr) (n0 : nat) : Prop :=
    match e with
    | ETuple _ (TTuple _ _ _) => exists s, f = FAtomic s /\ reads rv ends n0 s (forget_value e)
    | _ => good_text f (forget_value e) n0
    end.
  Definition place_text (p : PlaceExpr) (f : FmtExpr) (n0 : nat) : Prop :=
    (forall n r, (n0 <= n)%nat -> pends r -> rp n (to_string f ++ r) = Some (forget_place p, r)) /\
    exists j, (j <= n0)%nat /\ forall n r, (n0 <= n)%nat -> nodigit r ->
      rpa (S n) (to_atomic_string f ++ r) = read_suffix (rv n) (n - j) (forget_place p) r.

  Lemma value_eq n : rv (S n) =
        alt [("&raw ", fun r => let* p, r := rpa n r in Some (EAddrOf p (PRaw MKNone), r));
             ("&mut ", fun r => let* p, r := rpa n r in Some (EAddrOf p (PRef Mutable no_pointee), r));
             ("&", fun r => let* p, r := rpa n r in Some (EAddrOf p (PRef Immutable no_pointee), r));
             ("-(", fun r => read_one (rv n) (UInt IUNeg) r);
             ("!(", fun r => let* e, r := rv n r in Some (EUnOp (UInt IUBitNot) e, r));
             ("count_ones(", fun r => let* e, r := rv n r in Some (EUnOp (UInt IUCountOnes) e, r));
             ("vtable_lookup<m", fun r => let* m, r := read_nat r in expect ">(" r (read_one (rv n) (UVTableMethodLookup m)));
             ("T", fun r => let* t, r := read_comp F r in
                alt [(" { field", fun r => let* f, r := read_int r in expect ": " r (fun r => let* e, r := rv n r in expect " }" r (fun r => Some (EUnion f e t, r))));
                     ("(variant ", fun r => let* d, r := read_int r in expect "): " r (fun r => let* e, r := rv n r in Some (EVariant d e t, r)))]
                  (fun _ => None) r);
             ("(", fun r => let* l, r := read_list (rv n) n ")" r in
                match read_op r with
                | Some (op, r) => match l with [e] => let* e2, r := ra n r in Some (EBinOp op e e2, r) | _ => None end
                | None => Some (ETuple l no_type, r)
                end)]
          (fun s => let* e, r := ra n s in
             match read_op r with
             | Some (op, r) =>
                 match e, op with
                 | EConstant (KGlobalPointer g) t, BInt IAdd => let* o, r := read_nat r in Some (EConstant (KGlobalPointer (mkReloc (r_name g) o)) t, r)
                 | _, _ => let* e2, r := ra n r in Some (EBinOp op e e2, r)
                 end
             | None => Some (e, r)
             end).
  Proof. reflexivity. Qed.
  Lemma value_default n s : Forall (fun k => eat k s = None) special ->
    rv (S n) s = (let* e, r := ra n s in
             match read_op r with
             | Some (op, r) =>
                 match e, op with
                 | EConstant (KGlobalPointer g) t, BInt IAdd => let* o, r := read_nat r in Some (EConstant (KGlobalPointer (mkReloc (r_name g) o)) t, r)
                 | _, _ => let* e2, r := ra n r in Some (EBinOp op e e2, r)
                 end
             | None => Some (e, r)
             end).
  Proof. intros H. rewrite value_eq. etransitivity; [apply alt_none; exact H|reflexivity]. Qed.
  Lemma expect_app {B} k s (f : string -> option B) : expect k (k ++ s) f = f s.
  Proof.
    unfold expect. assert (eat k (k ++ s) = Some s) as ->; [|done]. induction k as [|c k IH]; [by destruct s|]. cbn [eat append]. by rewrite Ascii.eqb_refl.
  Qed.
  Lemma alt_app {A} k f (ks : list (string * Reader A)) d s : alt ((k, f) :: ks) d (k ++ s) = f s.
  Proof.
    cbn [alt]. assert (eat k (k ++ s) = Some s) as ->; [|done]. induction k as [|c k IH]; [by destruct s|]. cbn [eat append]. by rewrite Ascii.eqb_refl.
  Qed.
  Ltac key := intros; rewrite value_eq; reflexivity.
  Lemma rv_raw n r : rv (S n) ("&raw " ++ r) = (let* p, r := rpa n r in Some (EAddrOf p (PRaw MKNone), r)).
  Proof. key. Qed.
  Lemma rv_mut n r : rv (S n) ("&mut " ++ r) = (let* p, r := rpa n r in Some (EAddrOf p (PRef Mutable no_pointee), r)).
  Proof. key. Qed.
  Lemma rv_ref n r : eat "raw " r = None -> eat "mut " r = None ->
    rv (S n) ("&" ++ r) = (let* p, r := rpa n r in Some (EAddrOf p (PRef Immutable no_pointee), r)).
  Proof.
    intros H1 H2. rewrite value_eq. cbn [alt]. change (eat "&raw " ("&" ++ r)) with (eat "raw " r). change (eat "&mut " ("&" ++ r)) with (eat "mut " r).
    rewrite H1, H2. by destruct r.
  Qed.
  Lemma rv_neg n r : rv (S n) ("-(" ++ r) = read_one (rv n) (UInt IUNeg) r.
  Proof. key. Qed.
  Lemma rv_not n r : rv (S n) ("!(" ++ r) = (let* e, r := rv n r in Some (EUnOp (UInt IUBitNot) e, r)).
  Proof. key. Qed.
  Lemma rv_ones n r : rv (S n) ("count_ones(" ++ r) = (let* e, r := rv n r in Some (EUnOp (UInt IUCountOnes) e, r)).
  Proof. key. Qed.
  Lemma rv_lookup n r : rv (S n) ("vtable_lookup<" ++ "m" ++ r) = (let* m, r := read_nat r in expect ">(" r (read_one (rv n) (UVTableMethodLookup m))).
  Proof. key. Qed.
  Lemma rv_comp n r : rv (S n) ("T" ++ r) = (let* t, r := read_comp F r in
                alt [(" { field", fun r => let* f, r := read_int r in expect ": " r (fun r => let* e, r := rv n r in expect " }" r (fun r => Some (EUnion f e t, r))));
                     ("(variant ", fun r => let* d, r := read_int r in expect "): " r (fun r => let* e, r := rv n r in Some (EVariant d e t, r)))]
                  (fun _ => None) r).
  Proof. key. Qed.
  Lemma rv_paren n r : rv (S n) ("(" ++ r) = (let* l, r := read_list (rv n) n ")" r in
                match read_op r with
                | Some (op, r) => match l with [e] => let* e2, r := ra n r in Some (EBinOp op e e2, r) | _ => None end
                | None => Some (ETuple l no_type, r)
                end).
  Proof. key. Qed.

  Lemma ra_paren n r : ra (S n) ("(" ++ r) = (let* e, r := rv n r in expect ")" r (fun r => Some (e, r))).
  Proof. reflexivity. Qed.
  Lemma ra_array n r : ra (S n) ("[" ++ r) = (let* l, r := read_list (rv n) n "]" r in Some (ETuple l (TArray no_type 0), r)).
  Proof. reflexivity. Qed.
  Lemma ra_bool n b r : ra (S n) (show_bool b ++ r) = Some (EConstant (KBool b) no_type, r).
  Proof. by destruct b. Qed.
  Lemma ra_global n r : ra (S n) ("global(" ++ r) = (let* g, r := read_nat r in expect ")" r (fun r => Some (EConstant (KGlobalPointer (mkReloc g 0)) no_type, r))).
  Proof. reflexivity. Qed.
  Lemma ra_null n r : ra (S n) ("nullptr" ++ r) = Some (EConstant (KPointerWithoutProvenance 0) no_type, r).
  Proof. reflexivity. Qed.
  Lemma ra_invalid n r : ra (S n) ("invalid_ptr(" ++ r) = (let* a, r := read_int r in expect ")" r (fun r => Some (EConstant (KPointerWithoutProvenance a) no_type, r))).
  Proof. reflexivity. Qed.
  Lemma ra_discr n r : ra (S n) ("discriminant(" ++ r) = (let* p, r := rp n r in expect ")" r (fun r => Some (EGetDiscriminant p, r))).
  Proof. reflexivity. Qed.
  Lemma ra_load n r : ra (S n) ("load(" ++ r) = (let* p, r := rp n r in expect ")" r (fun r => Some (ELoad p, r))).
  Proof. reflexivity. Qed.
  Lemma ra_int2int n r : ra (S n) ("int2int<" ++ r) = (let* t, r := read_int_ty r in expect ">(" r (read_one (rv n) (UCast (CIntToInt t)))).
  Proof. reflexivity. Qed.
  Lemma ra_transmute n r : ra (S n) ("transmute<" ++ r) = (let* t, r := read_ty F n r in expect ">(" r (read_one (rv n) (UCast (CTransmute t)))).
  Proof. reflexivity. Qed.
  Lemma ra_thin n r : ra (S n) ("get_thin_ptr(" ++ r) = read_one (rv n) UGetThinPointer r.
  Proof. reflexivity. Qed.
  Lemma ra_meta n r : ra (S n) ("get_metadata(" ++ r) = read_one (rv n) UGetMetadata r.
  Proof. reflexivity. Qed.
  Lemma ra_size n r : ra (S n) ("compute_size<" ++ r) = (let* t, r := read_ty F n r in expect ">(" r (read_one (rv n) (UComputeSize t))).
  Proof. reflexivity. Qed.
  Lemma ra_align n r : ra (S n) ("compute_align<" ++ r) = (let* t, r := read_ty F n r in expect ">(" r (read_one (rv n) (UComputeAlign t))).
  Proof. reflexivity. Qed.
  Lemma ra_unchecked op f n r : fmt_int_op op = inr f -> ra (S n) (f ++ "(" ++ r) = read_two (ra n) (BInt op) r.
  Proof. destruct op; intros [= <-]; reflexivity. Qed.
  Lemma ra_overflow op n r : ra (S n) (fmt_overflow_op op ++ "WithOverflow(" ++ r) = read_two (ra n) (BIntWithOverflow op) r.
  Proof. destruct op; reflexivity. Qed.
  Lemma ra_offset (b : bool) n r : ra (S n) ((if b then "offset_inbounds" else "offset_wrapping") ++ "(" ++ r) = read_two (rv n) (BPtrOffset b) r.
  Proof. destruct b; reflexivity. Qed.
  Lemma ra_offset_from (b1 b2 : bool) n r :
    ra (S n) ("offset_from_" ++ (if b1 then "inbounds" else "wrapping") ++ (if b2 then "_nonneg" else "") ++ "(" ++ r) = read_two (rv n) (BPtrOffsetFrom b1 b2) r.
  Proof. destruct b1, b2; reflexivity. Qed.
  Lemma ra_wide n r : ra (S n) ("construct_ptr<" ++ r) = (let* pt, r := read_ptr n r in expect ">(" r (read_two (rv n) (BConstructWidePointer pt))).
  Proof. reflexivity. Qed.
  Lemma ra_fn n f r : nodigit r -> ra (S n) (("f" ++ show_nat f) ++ r) = Some (EConstant (KFnPointer f) no_type, r).
  Proof.
    intros Hr. rewrite str_assoc. assert (E : ra (S n) ("f" ++ show_nat f ++ r) = (let* f, r := read_nat (show_nat f ++ r) in Some (EConstant (KFnPointer f) no_type, r))).
    { destruct (nat_head f r) as (c & s & -> & Hc). cbn [In] in Hc. repeat (destruct Hc as [<-|Hc]; [reflexivity|]). done. }
    rewrite E, read_nat_ok by done. done.
  Qed.
  Lemma ra_vtable n f r : nodigit r -> ra (S n) (("vtable" ++ show_nat f) ++ r) = Some (EConstant (KVTablePointer f) no_type, r).
  Proof.
    intros Hr. rewrite str_assoc. assert (E : ra (S n) ("vtable" ++ show_nat f ++ r) = (let* f, r := read_nat (show_nat f ++ r) in Some (EConstant (KVTablePointer f) no_type, r))) by reflexivity.
    rewrite E, read_nat_ok by done. done.
  Qed.
  Lemma ra_int n i r : nodigit r -> ra (S n) (show_int i ++ r) = Some (EConstant (KInt i) no_type, r).
  Proof.
    intros Hr. assert (E : ra (S n) (show_int i ++ r) = (let* i, r := read_int (show_int i ++ r) in Some (EConstant (KInt i) no_type, r))).
    { destruct (int_head i r) as (c & s & -> & [Hc|(-> & c' & s' & -> & Hc)]); cbn [In] in Hc; repeat (destruct Hc as [<-|Hc]; [reflexivity|]); done. }
    rewrite E, read_int_ok by done. done.
  Qed.
  Lemma rpa_local n r : rpa (S n) ("_" ++ r) = (let* l, r := read_nat r in read_suffix (rv n) n (PLocal l) r).
  Proof. reflexivity. Qed.
  Lemma rpa_deref n r : rpa (S n) ("deref<" ++ r) = (let* t, r := read_ty F n r in expect ">(" r (fun r => let* e, r := rv n r in expect ")" r (fun r =>
                read_suffix (rv n) n (PDeref e t) r))).
  Proof. reflexivity. Qed.
  Lemma rpa_paren n r : rpa (S n) ("(" ++ r) = (let* p, r := rp n r in expect ")" r (fun r => read_suffix (rv n) n p r)).
  Proof. reflexivity. Qed.
  Lemma rp_eq n s : rp (S n) s = (let* p, r := rpa n s in alt [(" as variant ", fun r => let* d, r := read_int r in Some (PDowncast p d, r))] (fun s => Some (p, s)) r).
  Proof. reflexivity. Qed.
  Opaque read_value read_atom read_place read_patom.

  Ltac rx := repeat first [rewrite str_assoc | rewrite expect_app | rewrite read_nat_ok by nd | rewrite read_int_ok by nd | progress cbn [then_]].

  Lemma good_value f x n0 : good_text f x n0 -> reads rv ends (S n0) (to_string f) x.
  Proof.
    destruct f as [s|s]; cbn [good_text to_string].
    - intros H n r Hn Hr. apply H; [lia|done].
    - intros [Hs H] n r Hn Hr. destruct n as [|n]; [lia|]. rewrite value_default by (apply Hs, Hr).
      rewrite H by (lia || apply Hr). cbn [then_]. by rewrite (en_op _ Hr).
  Qed.
  Lemma text_value e f n0 : value_text e f n0 -> reads rv ends (S n0) (to_string f) (forget_value e).
  Proof.
    intros H. assert (good_text f (forget_value e) n0 \/ exists s, f = FAtomic s /\ reads rv ends n0 s (forget_value e)) as [Hg|(s & -> & Hs)].
    { destruct e; auto. cbn [value_text] in H. destruct ty; auto. }
    - by apply good_value.
    - intros n r Hn Hr. apply Hs; [lia|done].
  Qed.
  Lemma ends_paren s : ends (")" ++ s).
  Proof. en. Qed.
  Lemma ends_comma s : ends (", " ++ s).
  Proof. en. Qed.
  Lemma good_atom f x n0 : good_text f x n0 -> reads ra nodigit (S n0) (to_atomic_string f) x.
  Proof.
    destruct f as [s|s]; cbn [good_text to_atomic_string].
    - intros H n r Hn Hr. destruct n as [|n]; [lia|]. rewrite !str_assoc, ra_paren. rewrite H by (lia || apply ends_paren). by rx.
    - intros [_ H] n r Hn Hr. apply H; [lia|done].
  Qed.
  Lemma text_atom e f n0 : no_tuple e -> value_text e f n0 -> reads ra nodigit (S n0) (to_atomic_string f) (forget_value e).
  Proof. intros Ht H. apply good_atom. by destruct e. Qed.

  Lemma items_one {A} (rd : Reader A) k close s x r : rd s = Some (x, close ++ r) -> eat ", " (close ++ r) = None ->
    read_items rd (S k) close s = Some ([x], r).
  Proof. intros H1 H2. cbn [read_items]. rewrite H1. cbn [then_ alt]. rewrite H2. exact (expect_app close r (fun r => Some ([x], r))). Qed.

  (** an infix operator *)
  Lemma read_infix l fl r fr n0 op o rest : value_text l fl n0 -> value_text r fr n0 -> no_tuple l -> no_tuple r ->
    (op = BInt IAdd -> no_global l) -> (forall s, read_op (" " ++ o ++ " " ++ s) = Some (op, s)) -> ends rest ->
    forall n, (S (S (S n0)) <= n)%nat ->
    rv n ((to_atomic_string fl ++ " " ++ o ++ " " ++ to_atomic_string fr) ++ rest) = Some (EBinOp op (forget_value l) (forget_value r), rest).
  Proof.
    intros Hl Hr Htl Htr Hg Hop He n Hn. destruct n as [|[|n]]; [lia|lia|]. rewrite !str_assoc.
    assert (Hra : ra (S n) (to_atomic_string fr ++ rest) = Some (forget_value r, rest)) by (apply (text_atom _ _ _ Htr Hr); [lia|apply He]).
    assert (Hlg : good_text fl (forget_value l) n0) by (by destruct l). clear Hl. destruct fl as [s|s]; cbn [good_text to_atomic_string] in *.
    - rewrite !str_assoc, rv_paren. unfold read_list.
      rewrite (items_one _ n ")" _ (forget_value l) (" " ++ o ++ " " ++ to_atomic_string fr ++ rest)); [|apply Hlg; [lia|apply ends_paren]|done].
      cbn [then_]. rewrite Hop. cbv iota beta. rewrite Hra. done.
    - destruct Hlg as [Hs Hra']. rewrite value_default by (by apply Hs). rewrite Hra' by (lia || done). cbn [then_]. rewrite Hop.
      assert (Hx : (let* e2, r0 := ra (S n) (to_atomic_string fr ++ rest) in Some (EBinOp op (forget_value l) e2, r0)) =
        Some (EBinOp op (forget_value l) (forget_value r), rest)) by (rewrite Hra; done).
      destruct (forget_value l) as [c ty| | | | | | | |] eqn:El; try exact Hx. destruct c as [| |g| | |]; try exact Hx. destruct op as [o'| | | | |]; try exact Hx. destruct o'; try exact Hx.
      exfalso. specialize (Hg eq_refl). destruct l as [c' ty'| | | | | | | |]; cbn in El; try done. injection El as -> _. done.
  Qed.

  Lemma good_le f x n0 n1 : good_text f x n0 -> (n0 <= n1)%nat -> good_text f x n1.
  Proof.
    destruct f as [s|s]; cbn [good_text].
    - intros H Hn n r H1 Hr. apply H; [lia|done].
    - intros [Hs H] Hn. split; [done|]. intros n r H1 Hr. apply H; [lia|done].
  Qed.
  Lemma value_le e f n0 n1 : value_text e f n0 -> (n0 <= n1)%nat -> value_text e f n1.
  Proof.
    intros H Hn. destruct e; try (by eapply good_le). cbn [value_text] in *. destruct ty; try (by eapply good_le).
    destruct H as (s & -> & H). exists s. split; [done|]. intros n r H1 Hr. apply H; [lia|done].
  Qed.
  Lemma atomic_place p s n0 j : (S j <= n0)%nat ->
    (forall n r, (n0 <= n)%nat -> nodigit r -> rpa (S n) (s ++ r) = read_suffix (rv n) (n - j) (forget_place p) r) -> place_text p (FAtomic s) (S (S n0)).
  Proof.
    intros Hj H. split; cbn [to_string to_atomic_string].
    - intros n r Hn Hr. destruct n as [|[|n]]; [lia|lia|]. rewrite rp_eq, H by (lia || apply Hr). rewrite read_suffix_stop by apply Hr. cbn [then_ alt]. by rewrite (pe_as _ Hr).
    - exists j. split; [lia|]. intros n r Hn Hr. apply H; [lia|done].
  Qed.
  Lemma patom_ends p f n0 : place_text p f n0 -> forall n r, (S n0 <= n)%nat -> ends r -> rpa n (to_atomic_string f ++ r) = Some (forget_place p, r).
  Proof. intros (_ & j & Hj & H) n r Hn Hr. destruct n as [|n]; [lia|]. rewrite H by (lia || apply Hr). apply read_suffix_stop; apply Hr. Qed.
  Lemma pends_paren r : pends (")" ++ r).
  Proof. by split. Qed.
  Lemma suffix_field rd k p r : read_suffix rd (S k) p ("." ++ r) = (let* i, r := read_int r in read_suffix rd k (PField p i) r).
  Proof. reflexivity. Qed.
  Lemma suffix_index rd k p r : read_suffix rd (S k) p ("[" ++ r) = (let* i, r := rd r in expect "]" r (fun r => read_suffix rd k (PIndex p i) r)).
  Proof. reflexivity. Qed.

  (** *** Lists *)
  Lemma items_ok {A} (rd : Reader A) close (ss : list string) xs : Forall2 (fun s x => forall r, ends r -> rd (s ++ r) = Some (x, r)) ss xs ->
    (close = ")" \/ close = "]") -> forall k r, ss <> [] -> (length ss <= k)%nat -> read_items rd k close ((join_str ", " ss ++ close) ++ r) = Some (xs, r).
  Proof.
    intros H Hc. induction H as [|s x ss xs Hs H IH]; intros k r Hne Hk; [done|]. cbn [length] in Hk. destruct k as [|k]; [lia|].
    destruct ss as [|s2 ss].
    - apply Forall2_nil_inv_l in H as ->. cbn [join_str]. rewrite str_assoc. apply items_one; [|by destruct Hc; subst]. apply Hs. destruct Hc; subst; en.
    - change (join_str ", " (s :: s2 :: ss)) with (s ++ ", " ++ join_str ", " (s2 :: ss)). cbn [read_items]. rewrite !str_assoc, Hs by apply ends_comma.
      cbn [then_]. etransitivity; [exact (alt_app ", " _ _ _ _)|cbv beta]. specialize (IH k r ltac:(done) ltac:(cbn in *; lia)). rewrite str_assoc in IH. by rewrite IH.
  Qed.
  Lemma list_ok {A} (rd : Reader A) close (ss : list string) xs : Forall2 (fun s x => forall r, ends r -> rd (s ++ r) = Some (x, r)) ss xs ->
    (close = ")" \/ close = "]") -> (forall r, rd (close ++ r) = None) ->
    forall k r, (length ss <= k)%nat -> read_list rd k close (join_str ", " ss ++ close ++ r) = Some (xs, r).
  Proof.
    intros H Hc Hn k r Hk. unfold read_list. destruct ss as [|s ss].
    - apply Forall2_nil_inv_l in H as ->. cbn [join_str append]. destruct k as [|k]; cbn [read_items]; [|rewrite Hn; cbn [then_]]; exact (expect_app close r (fun r => Some ([], r))).
    - pose proof (items_ok rd close _ _ H Hc k r ltac:(done) Hk) as E. rewrite str_assoc in E. by rewrite E.
  Qed.
  Lemma no_value_paren n r : rv n (")" ++ r) = None.
  Proof.
    destruct n as [|n]; [done|]. rewrite value_default by (repeat (constructor; [reflexivity|]); constructor). by destruct n.
  Qed.
  Lemma no_value_bracket n r : rv n ("]" ++ r) = None.
  Proof.
    destruct n as [|n]; [done|]. rewrite value_default by (repeat (constructor; [reflexivity|]); constructor). by destruct n.
  Qed.
End Exprs.

(** ** The table only grows *)

Ltac inv := repeat match goal with
  | H : obind _ _ = Ret _ |- _ => apply obind_ret in H as (? & ? & ?)
  | x : _ * _ |- _ => destruct x
  | H : Ret _ = Ret _ |- _ => injection H as <- <-
  | H : Ret _ = Ret _ |- _ => injection H as H
  | H : context[match fmt_type ?t ?c with _ => _ end] |- _ => let E := fresh "Et" in destruct (fmt_type t c) eqn:E
  end.
Lemma un_op_grows op s ct f ct' : fmt_un_op op s ct = (f, ct') -> ct `prefix_of` ct'.
Proof.
  destruct op as [[]|[it|ty]| | |ty|ty|m]; cbn [fmt_un_op]; try (by intros [= <- <-]).
  all: destruct (fmt_type ty ct) as [t c1] eqn:E; intros [= <- <-]; by eapply type_grows.
Qed.
Lemma exprs_grow : (forall e ct f ct', fmt_value_expr e ct = Ret (f, ct') -> ct `prefix_of` ct') /\
                   (forall p ct f ct', fmt_place_expr p ct = Ret (f, ct') -> ct `prefix_of` ct').
Proof.
  apply Expr_ind'.
  - intros c ty ct f ct' H. cbn in H. by inv.
  - intros es ty IH ct f ct' H. cbn [fmt_value_expr] in H. apply obind_ret in H as ([lp rp] & _ & H). apply obind_ret in H as ([l c1] & H & E). injection E as <- <-.
    revert ct l c1 H. induction IH as [|e es He IH IH']; intros ct l c1 H; cbn in H; inv; [done|]. etransitivity; [by eapply He|by eapply IH'].
  - intros fi e ty IH ct f ct' H. cbn in H. inv. etransitivity; [by eapply type_grows|by eapply IH].
  - intros fi e ty IH ct f ct' H. cbn in H. inv. etransitivity; [by eapply type_grows|by eapply IH].
  - intros p IH ct f ct' H. cbn in H. inv. by eapply IH.
  - intros p IH ct f ct' H. cbn in H. inv. by eapply IH.
  - intros p pt IH ct f ct' H. destruct pt as [m pi|pi|mk| |tn]; cbn in H; try done; inv; by eapply IH.
  - intros op e IH ct f ct' H. cbn [fmt_value_expr] in H. inv. etransitivity; [by eapply IH|by eapply un_op_grows].
  - intros op e1 e2 IH1 IH2 ct f ct' H. cbn [fmt_value_expr] in H. inv. etransitivity; [by eapply IH1|by eapply IH2].
  - intros n ct f ct' H. cbn in H. by inv.
  - intros e ty IH ct f ct' H. cbn in H. inv. etransitivity; [by eapply type_grows|by eapply IH].
  - intros p fi IH ct f ct' H. cbn in H. inv. by eapply IH.
  - intros p e IHp IHe ct f ct' H. cbn in H. inv. etransitivity; [by eapply IHp|by eapply IHe].
  - intros p d IH ct f ct' H. cbn in H. inv. by eapply IH.
Qed.
