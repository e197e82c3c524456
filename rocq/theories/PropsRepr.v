(** The properties of value representation and layout (C01-C08, C10, C43, C44, C46, C58). Only the
    statements are here; the proofs are in the files imported. [shape], [bytes_le], [value_le],
    [optval_le], [leaf], [coherent] and [env_sound] are defined in ReprSpec.v, [part] and [meta_fits]
    in LayoutProofs.v. *)
From Verif Require Import ExRepr LayoutProofs.

(** C01. Encoding a well-formed value fills exactly the type's size. *)
Theorem C01_encode_fills_size {P} `{EqDecision P} T ht (env : ChkEnv P) ty v s :
  target_ok T -> ty_check_wf T ht ty = Ret tt -> size_of T ty = Ret s ->
  check_value T env ty v = Ret tt ->
  exists bytes, encode T ty v = Ret bytes /\ N.of_nat (length bytes) = s.
Proof.
  intros Tok Hwf Hs Hc. rewrite <- (size_of_tsize T _ _ Hs).
  exact (encode_total T Tok ht ty v Hwf (check_value_shape T env ty v Hc)).
Qed.
Print Assumptions C01_encode_fills_size.

Example C01_hyps : exists T ht (env : ChkEnv N) ty v s,
  target_ok T /\ ty_check_wf T ht ty = Ret tt /\ size_of T ty = Ret s /\
  check_value T env ty v = Ret tt /\ s = 48%N.
Proof.
  exists x86_64, ht0, env0, ex_ty, ex_val, 48%N.
  exact (conj x86_64_ok (conj ex_ty_wf (conj ex_ty_size (conj ex_val_ok eq_refl)))).
Qed.

(** C02. Decoding the encoding gives the value back, at coherent types. *)
Theorem C02_decode_encode {P} `{EqDecision P} T ht (env : ChkEnv P) ty v :
  target_ok T -> ty_check_wf T ht ty = Ret tt -> coherent T (P := P) ty ->
  check_value T env ty v = Ret tt ->
  exists bytes, encode T ty v = Ret bytes /\ decode T ty bytes = Ret (Some v).
Proof.
  intros Tok Hwf Hco Hc.
  destruct (encode_total T Tok ht ty v Hwf (check_value_shape T env ty v Hc)) as (b & Hb & _).
  exact (ex_intro _ b (conj Hb (decode_encode T Tok ht env ty v b Hwf Hco Hc Hb))).
Qed.
Print Assumptions C02_decode_encode.

Example C02_hyps :
  target_ok x86_64 /\ ty_check_wf x86_64 ht0 ex_ty = Ret tt /\ coherent x86_64 (P := N) ex_ty /\
  check_value x86_64 env0 ex_ty ex_val = Ret tt.
Proof. exact (conj x86_64_ok (conj ex_ty_wf (conj ex_ty_coherent ex_val_ok))). Qed.

(** The spec (representation.md:751-759) states the round trip for every well-formed type. That is
    false: the check accepts enums whose tag overwrites the variant's data, or whose discriminator
    does not know a variant. *)
Theorem C02_unconditional_refuted :
  exists ty (v w : Value N) bytes,
    ty_check_wf x86_64 ht0 ty = Ret tt /\ check_value x86_64 env0 ty v = Ret tt /\
    encode x86_64 ty v = Ret bytes /\ decode x86_64 ty bytes = Ret (Some w) /\ v <> w.
Proof.
  exists bad_enum_overlap, (VVariant 0 (VTuple [VInt 5])), (VVariant 0 (VTuple [VInt 0])), [Init x00 None].
  repeat split; try (vm_compute; reflexivity). discriminate.
Qed.
Print Assumptions C02_unconditional_refuted.

Theorem C02_unconditional_refuted_invalid :
  exists ty (v : Value N) bytes,
    ty_check_wf x86_64 ht0 ty = Ret tt /\ check_value x86_64 env0 ty v = Ret tt /\
    encode x86_64 ty v = Ret bytes /\ decode x86_64 ty bytes = Ret None.
Proof.
  exists bad_enum_unknown, (VVariant 0 (VTuple [])), [Uninit].
  repeat split; vm_compute; reflexivity.
Qed.
Print Assumptions C02_unconditional_refuted_invalid.

(** C03. Encoding a decoded value gives bytes that are at most as defined as the original. *)
Theorem C03_encode_decode {P} `{EqDecision P} T ht ty (bytes : list (AByte P)) v :
  target_ok T -> ty_check_wf T ht ty = Ret tt -> coherent T (P := P) ty ->
  decode T ty bytes = Ret (Some v) ->
  exists bytes', encode T ty v = Ret bytes' /\ bytes_le bytes' bytes.
Proof. intros Tok. exact (encode_decode T Tok ht ty bytes v). Qed.
Print Assumptions C03_encode_decode.

Example C03_hyps : exists bytes,
  target_ok x86_64 /\ ty_check_wf x86_64 ht0 ex_ty = Ret tt /\ coherent x86_64 (P := N) ex_ty /\
  decode x86_64 ex_ty bytes = Ret (Some ex_val).
Proof.
  destruct (C02_decode_encode x86_64 ht0 env0 ex_ty ex_val x86_64_ok ex_ty_wf ex_ty_coherent ex_val_ok)
    as (b & _ & Hb).
  exact (ex_intro _ b (conj x86_64_ok (conj ex_ty_wf (conj ex_ty_coherent Hb)))).
Qed.

(** For arbitrary well-formed enums this fails too: re-encoding changes an initialised byte. *)
Theorem C03_unconditional_refuted :
  exists ty (bytes : list (AByte N)) v bytes',
    ty_check_wf x86_64 ht0 ty = Ret tt /\ decode x86_64 ty bytes = Ret (Some v) /\
    encode x86_64 ty v = Ret bytes' /\ ~ bytes_le bytes' bytes.
Proof.
  exists bad_enum_tag, [Init x03 None], (VVariant 0 (VTuple [])), [Init x07 None].
  repeat split; try (vm_compute; reflexivity).
  intros H. inversion H as [|? ? ? ? Hb]. inversion Hb.
Qed.
Print Assumptions C03_unconditional_refuted.

(** C04. Decoding is total on byte lists of the right length and monotone in definedness. *)
Theorem C04_decode_mono {P} `{EqDecision P} T ht ty s (b1 b2 : list (AByte P)) :
  target_ok T -> ty_check_wf T ht ty = Ret tt -> size_of T ty = Ret s ->
  N.of_nat (length b1) = s -> bytes_le b1 b2 ->
  exists o1 o2, decode T ty b1 = Ret o1 /\ decode T ty b2 = Ret o2 /\ optval_le o1 o2.
Proof.
  intros Tok Hwf Hs Hl. rewrite <- (size_of_tsize T _ _ Hs) in Hl.
  exact (decode_mono T Tok ht ty b1 b2 Hwf (proj2 (sized_size T ty) (ex_intro _ s Hs)) Hl).
Qed.
Print Assumptions C04_decode_mono.

(** filling the padding and the uninitialised union bytes of the example *)
Example C04_hyps : exists b1 b2 : list (AByte N),
  size_of x86_64 ex_ty = Ret 48%N /\ N.of_nat (length b1) = 48%N /\ bytes_le b1 b2 /\ b1 <> b2 /\
  decode x86_64 ex_ty b1 = Ret (Some ex_val).
Proof.
  destruct (C02_decode_encode x86_64 ht0 env0 ex_ty ex_val x86_64_ok ex_ty_wf ex_ty_coherent ex_val_ok)
    as (b & He & Hb).
  exists b, (List.map (fun x => match x with Uninit => Init x09 None | y => y end) b).
  split; [exact ex_ty_size|]. vm_compute in He. injection He as <-.
  repeat split; try done; repeat constructor.
Qed.

(** C05. Encoding is monotone in definedness. *)
Theorem C05_encode_mono {P} `{EqDecision P} T ty (v1 v2 : Value P) b1 b2 :
  target_ok T -> value_le v1 v2 -> encode T ty v1 = Ret b1 -> encode T ty v2 = Ret b2 ->
  bytes_le b1 b2.
Proof. intros Tok. exact (encode_mono T Tok ty v1 v2 b1 b2). Qed.
Print Assumptions C05_encode_mono.

Example C05_hyps : exists (v1 v2 : Value N) b1 b2,
  value_le v1 v2 /\ encode x86_64 (TPtr (PRef Immutable pis)) v1 = Ret b1 /\
  encode x86_64 (TPtr (PRef Immutable pis)) v2 = Ret b2 /\ b1 <> b2.
Proof.
  exists (VPtr (mkPtr (mkThin 8192 None) (Some (MElementCount 5)))),
         (VPtr (mkPtr (mkThin 8192 (Some 9%N)) (Some (MElementCount 5)))).
  eexists _, _. split; [constructor; repeat constructor|].
  split; [vm_compute; reflexivity|]. split; [vm_compute; reflexivity|discriminate].
Qed.

(** The order of the spec's executable comparison is the relation used above. *)
Theorem C05_order_is_relation {P} `{EqDecision P} (a b : Value P) : val_le a b = true <-> value_le a b.
Proof. exact (val_le_spec a b). Qed.
Print Assumptions C05_order_is_relation.

(** C06. Integer encoding. *)
Theorem C06_encodable_iff_in_range e sg s i :
  s <> 0%N ->
  ((exists l, endian_encode e sg s i = Some l) <->
   match sg with
   | Unsigned => 0 <= i < 2 ^ (8 * Z.of_N s)
   | Signed => - 2 ^ (8 * Z.of_N s - 1) <= i < 2 ^ (8 * Z.of_N s - 1)
   end).
Proof. exact (endian_encode_range e sg s i). Qed.
Print Assumptions C06_encodable_iff_in_range.

Theorem C06_decode_encode e sg s i l :
  endian_encode e sg s i = Some l -> N.of_nat (length l) = s /\ endian_decode e sg l = i.
Proof.
  intros H. exact (conj (endian_encode_length e sg s i l H) (endian_decode_encode e sg s i l H)).
Qed.
Print Assumptions C06_decode_encode.

Theorem C06_encode_decode e sg l :
  endian_encode e sg (N.of_nat (length l)) (endian_decode e sg l) = Some l.
Proof. exact (endian_encode_decode e sg l). Qed.
Print Assumptions C06_encode_decode.

Theorem C06_little_endian_bytes sg s i l k b :
  endian_encode LittleEndian sg s i = Some l -> l !! k = Some b ->
  Z_of_byte b = (i / 256 ^ Z.of_nat k) mod 256.
Proof. exact (endian_encode_byte sg s i l k b). Qed.
Print Assumptions C06_little_endian_bytes.

Theorem C06_big_endian_reversed sg s i :
  endian_encode BigEndian sg s i = option_map (@List.rev byte) (endian_encode LittleEndian sg s i).
Proof. exact (endian_encode_big sg s i). Qed.
Print Assumptions C06_big_endian_reversed.

Example C06_hyps :
  endian_encode LittleEndian Signed 2 (-2) = Some [xfe; xff] /\
  endian_encode BigEndian Unsigned 2 258 = Some [x01; x02] /\
  endian_encode LittleEndian Unsigned 1 256 = None.
Proof. vm_compute. repeat split. Qed.

(** C07. Pointers survive memory; integers have no provenance. *)
Theorem C07_pointer_roundtrip {P} `{EqDecision P} T pt (p : Pointer P) :
  target_ok T -> 0 <= tp_addr (p_thin p) < 2 ^ (8 * Z.of_N (PTR_SIZE T)) ->
  meta_shape T (ptr_meta_kind pt) (p_meta p) ->
  exists bytes, encode T (TPtr pt) (VPtr p) = Ret bytes /\
                decode T (TPtr pt) bytes = Ret (Some (VPtr p)).
Proof.
  intros Tok Ha Hm. destruct (encode_pointer_total T Tok pt p Ha Hm) as (b & Hb & _).
  exact (ex_intro _ b (conj Hb (decode_encode_pointer T Tok pt p b Hb))).
Qed.
Print Assumptions C07_pointer_roundtrip.

(** [strip] removes the provenance of a byte. *)
Theorem C07_int_ignores_provenance {P} `{EqDecision P} T it (bytes : list (AByte P)) :
  decode T (TInt it) (List.map strip bytes) = decode T (TInt it) bytes.
Proof. exact (decode_int_strip T it bytes). Qed.
Print Assumptions C07_int_ignores_provenance.

(** Decoded provenance is [pr] exactly if the i-th byte carries fragment i of [pr], for all i: with
    missing, reordered or mixed fragments there is none. *)
Theorem C07_provenance_exact {P} `{EqDecision P} T (bytes : list (AByte P)) p :
  target_ok T -> decode T (TPtr (PRaw MKNone)) bytes = Ret (Some (VPtr p)) ->
  p_meta p = None /\
  forall pr, tp_prov (p_thin p) = Some pr <->
    forall i x, bytes !! i = Some x -> ab_frag x = Some (mkFrag pr (Z.of_nat i)).
Proof. intros Tok. exact (decode_raw_prov T Tok bytes p). Qed.
Print Assumptions C07_provenance_exact.

(** a wide pointer; and swapping two bytes of an encoded pointer loses the provenance *)
Example C07_hyps :
  (exists b, encode x86_64 (TPtr (PRef Immutable pis))
     (VPtr (mkPtr (mkThin 8192 (Some 9%N)) (Some (MElementCount 5)))) = Ret b /\ length b = 16%nat) /\
  (exists b0 b1 r, encode x86_64 (TPtr (PRaw MKNone)) (VPtr (mkPtr (mkThin 257 (Some 9%N)) None)) =
      Ret (b0 :: b1 :: r) /\
     decode x86_64 (TPtr (PRaw MKNone)) (b1 :: b0 :: r) =
       Ret (Some (VPtr (mkPtr (mkThin 257 None) None)))).
Proof.
  split; [eexists|eexists _, _, _]; split; vm_compute; reflexivity.
Qed.

(** C08. Decoding only yields values of the right shape; what remains to be checked are pointers. *)
Theorem C08_decode_shape {P} `{EqDecision P} T ht ty (bytes : list (AByte P)) v :
  target_ok T -> ty_check_wf T ht ty = Ret tt -> decode T ty bytes = Ret (Some v) ->
  shape T ty v /\
  forall env : ChkEnv P, check_value T env ty v = Ret tt <->
    forall pt p, leaf ty v pt p -> check_ptr T env p pt = Ret tt.
Proof.
  intros Tok Hwf Hd. pose proof (decode_shape T Tok ht ty bytes v Hwf Hd) as Hs.
  split; [exact Hs|]. intros env. split.
  - intros Hc. exact (proj2 (proj1 (check_value_leaves T env ty v) Hc)).
  - intros Hl. exact (proj2 (check_value_leaves T env ty v) (conj Hs Hl)).
Qed.
Print Assumptions C08_decode_shape.
(** [C03_hyps] meets these hypotheses. *)

(** The check is never a crash for values of the right shape. *)
Theorem C08_check_value_no_crash {P} `{EqDecision P} T ht (env : ChkEnv P) ty v :
  env_sound env -> ty_check_wf T ht ty = Ret tt -> shape T ty v ->
  check_value T env ty v = Ret tt \/ is_ub (check_value T env ty v).
Proof.
  intros He Hwf Hs. destruct (check_value_ok T ht env ty v He Hwf Hs) as [[[] ?]|?]; auto.
Qed.
Print Assumptions C08_check_value_no_crash.

Example C08_no_crash_hyps : exists v, env_sound env0 /\
  shape x86_64 (TPtr (PRef Mutable pi4)) v /\
  is_ub (check_value x86_64 env0 (TPtr (PRef Mutable pi4)) v).
Proof.
  exists (VPtr (mkPtr (mkThin 2 None) None)). split; [exact env0_sound|]. split.
  - constructor; [|constructor]. split; [discriminate|reflexivity].
  - eexists. vm_compute. reflexivity.
Qed.

(** C10. Transmute. *)
Theorem C10_transmute_exact {P} `{EqDecision P} T ht (env : ChkEnv P) v t1 t2 s :
  target_ok T -> env_sound env ->
  ty_check_wf T ht t1 = Ret tt -> ty_check_wf T ht t2 = Ret tt ->
  size_of T t1 = Ret s -> size_of T t2 = Ret s -> check_value T env t1 v = Ret tt ->
  (forall w, transmute T env v t1 t2 = Ret w <->
     exists bytes, encode T t1 v = Ret bytes /\ decode T t2 bytes = Ret (Some w) /\
                   check_value T env t2 w = Ret tt) /\
  (is_ub (transmute T env v t1 t2) <->
     ~ exists bytes w, encode T t1 v = Ret bytes /\ decode T t2 bytes = Ret (Some w) /\
                   check_value T env t2 w = Ret tt).
Proof. intros Tok. exact (transmute_valid T Tok ht env v t1 t2 s). Qed.
Print Assumptions C10_transmute_exact.

Theorem C10_transmute_same {P} `{EqDecision P} T ht (env : ChkEnv P) v ty s :
  target_ok T -> ty_check_wf T ht ty = Ret tt -> coherent T (P := P) ty -> size_of T ty = Ret s ->
  check_value T env ty v = Ret tt -> transmute T env v ty ty = Ret v.
Proof. intros Tok. exact (transmute_same T Tok ht env v ty s). Qed.
Print Assumptions C10_transmute_same.
(** [C02_hyps] and [ex_ty_size] meet these hypotheses. *)

(** u8 3 is not a bool; u8 1 is; [u8; 2] to u16 *)
Example C10_hyps :
  is_ub (transmute x86_64 env0 (VInt 3) (TInt u8_t) TBool) /\
  transmute x86_64 env0 (VInt 1) (TInt u8_t) TBool = Ret (VBool true) /\
  transmute x86_64 env0 (VTuple [VInt 254; VInt 255]) (TArray (TInt u8_t) 2) (TInt i16_t) = Ret (VInt (-2)).
Proof. vm_compute. repeat split. eexists. reflexivity. Qed.

(** C43. Layouts. *)
Theorem C43_size_aligned_and_bounded T ht ty s a :
  target_ok T -> ty_check_wf T ht ty = Ret tt -> layout T ty = Ret (LSized s a) ->
  (s mod align_bytes a = 0)%N /\ Z.of_N s <= 2 ^ (8 * Z.of_N (PTR_SIZE T) - 1) - 1.
Proof. exact (layout_sized_ok T ht ty s a). Qed.
Print Assumptions C43_size_aligned_and_bounded.

Theorem C43_parts_inside T ht ty s a o t :
  ty_check_wf T ht ty = Ret tt -> layout T ty = Ret (LSized s a) -> part T ty o t ->
  exists s' a', layout T t = Ret (LSized s' a') /\ (o + s' <= s)%N.
Proof. exact (part_inside T ht ty s a o t). Qed.
Print Assumptions C43_parts_inside.

Theorem C43_fields_disjoint T ht fields head u i j o1 t1 o2 t2 s1 s2 :
  ty_check_wf T ht (TTuple fields head u) = Ret tt ->
  fields !! i = Some (o1, t1) -> fields !! j = Some (o2, t2) -> i <> j ->
  size_of T t1 = Ret s1 -> size_of T t2 = Ret s2 ->
  (o1 + s1 <= o2 \/ o2 + s2 <= o1)%N.
Proof. exact (fields_disjoint T ht fields head u i j o1 t1 o2 t2 s1 s2). Qed.
Print Assumptions C43_fields_disjoint.

Example C43_hyps : ty_check_wf x86_64 ht0 ex_ty = Ret tt /\
  layout x86_64 ex_ty = Ret (LSized 48 (mkAlign 3)) /\ part x86_64 ex_ty 24 (TPtr (PRef Immutable pis)).
Proof.
  split; [exact ex_ty_wf|]. split; [vm_compute; reflexivity|].
  apply pt_field. simpl. tauto.
Qed.

(** C44. Sizes of unsized values. *)
Theorem C44_size_aligned {P} vt l (m : option (PtrMeta P)) :
  layout_check_aligned l = Ret tt -> meta_fits vt l m ->
  exists s a, compute_size_and_align l m vt = Ret (s, a) /\ (s mod align_bytes a = 0)%N.
Proof. exact (compute_size_and_align_ok vt l m). Qed.
Print Assumptions C44_size_aligned.

Theorem C44_tail_inside {P} h tail (m : PtrMeta P) vt s a st at_ :
  compute_size_and_align (LTuple h tail) (Some m) vt = Ret (s, a) ->
  compute_size_and_align tail (Some m) vt = Ret (st, at_) ->
  let off := tail_offset h at_ in
  (th_end h <= off /\ off + st <= s /\ off mod align_bytes (capped_tail_align h at_) = 0 /\
   align_bytes (capped_tail_align h at_) <= align_bytes at_)%N /\
  (s mod align_bytes (th_align h) = 0)%N /\
  (s mod align_bytes (capped_tail_align h at_) = 0)%N /\
  (th_packed h = None -> capped_tail_align h at_ = at_).
Proof. exact (tail_inside h tail m vt s a st at_). Qed.
Print Assumptions C44_tail_inside.

Theorem C44_size_grows {P} vt l c c' s a s' a' :
  c <= c' ->
  compute_size_and_align l (Some (MElementCount (P := P) c)) vt = Ret (s, a) ->
  compute_size_and_align l (Some (MElementCount c')) vt = Ret (s', a') ->
  (s <= s')%N /\ a = a'.
Proof. exact (compute_size_mono vt l c c' s a s' a'). Qed.
Print Assumptions C44_size_grows.

Theorem C44_slice_is_array {P} T vt ht elem n s a :
  ty_check_wf T ht (TArray elem n) = Ret tt -> layout T (TArray elem n) = Ret (LSized s a) ->
  exists l, layout T (TSlice elem) = Ret l /\
    compute_size_and_align l (Some (MElementCount (P := P) n)) vt = Ret (s, a).
Proof. exact (slice_size_is_array_size T vt ht elem n s a). Qed.
Print Assumptions C44_slice_is_array.

(** head of 5 bytes aligned to 4, tail [i16]: tail at offset 6; with 3 elements the size is 12 *)
Example C44_hyps : let l := LTuple (mkHead 5 (mkAlign 2) None) (LSlice 2 (mkAlign 1)) in
  let vt := fun _ : ThinPtr N => Panic in
  layout_check_aligned l = Ret tt /\ meta_fits vt l (Some (MElementCount 3)) /\
  compute_size_and_align l (Some (MElementCount 3)) vt = Ret (12%N, mkAlign 2) /\
  compute_size_and_align l (Some (MElementCount 4)) vt = Ret (16%N, mkAlign 2) /\
  tail_offset (mkHead 5 (mkAlign 2) None) (mkAlign 1) = 6%N.
Proof.
  cbv zeta. split; [reflexivity|]. split; [|repeat split; vm_compute; reflexivity].
  split; [discriminate|]. exists 3. split; [reflexivity|]. discriminate.
Qed.

(** C46. The overflow pair. *)
Theorem C46_pair_type_wf T ht it t :
  is_power_of_two (it_size it) = true -> with_overflow T it = Ret t ->
  (forall a, int_align T it = Ret a -> valid_size T (it_size it + align_bytes a) = true) ->
  valid_size T (it_size it) = true -> valid_size T 1 = true ->
  ty_check_wf T ht t = Ret tt.
Proof. exact (with_overflow_wf T ht it t). Qed.
Print Assumptions C46_pair_type_wf.

Theorem C46_pair_type_wf_x86_64 ht it :
  ty_check_wf x86_64 ht (TInt it) = Ret tt ->
  exists t, with_overflow x86_64 it = Ret t /\ ty_check_wf x86_64 ht t = Ret tt.
Proof. exact (with_overflow_wf_x86_64 ht it). Qed.
Print Assumptions C46_pair_type_wf_x86_64.

Theorem C46_pair_value_wf {P} `{EqDecision P} T (env : ChkEnv P) it t v b :
  with_overflow T it = Ret t -> in_bounds (it_signed it) (it_size it) v = true ->
  check_value T env t (VTuple [VInt v; VBool b]) = Ret tt.
Proof. exact (with_overflow_value T env it t v b). Qed.
Print Assumptions C46_pair_value_wf.

Example C46_hyps : exists t, with_overflow x86_64 u32_t = Ret t /\ size_of x86_64 t = Ret 8%N /\
  ty_check_wf x86_64 ht0 (TInt u32_t) = Ret tt.
Proof.
  eexists. split; [vm_compute; reflexivity|]. split; vm_compute; reflexivity.
Qed.

(** C58. Enums as the compiler front end translates them are coherent. *)
Theorem C58_direct_enum_coherent {P} `{EqDecision P} T ht vs off it dty size align :
  ty_check_wf T ht (direct_enum vs off it dty size align) = Ret tt ->
  NoDup (List.map fst vs) ->
  Forall (fun v => coherent T (P := P) (snd v)) vs ->
  (forall d t i, In (d, t) vs -> (off <= i < off + it_size it)%N -> ~ uses T t i) ->
  coherent T (P := P) (direct_enum vs off it dty size align).
Proof. exact (direct_enum_coherent T ht vs off it dty size align). Qed.
Print Assumptions C58_direct_enum_coherent.

Theorem C58_niche_enum_coherent {P} `{EqDecision P} T ht vs u ut off it nvs ns inv dty size align :
  let tag := niche_tag it nvs ns in
  ty_check_wf T ht (niche_enum vs u ut off it nvs ns inv dty size align) = Ret tt ->
  NoDup (u :: List.map fst vs) ->
  (forall x y, In x (List.map fst vs) -> In y (List.map fst vs) -> tag x = tag y -> x = y) ->
  Forall (fun v => coherent T (P := P) (snd v)) vs -> coherent T (P := P) ut ->
  (forall d t i, In (d, t) vs -> (off <= i < off + it_size it)%N -> ~ uses T t i) ->
  (forall env (v : Value P) enc, check_value T env ut v = Ret tt -> encode T ut v = Ret enc ->
     exists sub val, subslice enc off (it_size it) = Ret sub /\
       decode_int_opt T it sub = Ret (Some val) /\
       (forall d t, In (d, t) vs -> val <> tag d) /\
       (forall r, In r inv -> in_range val r = false)) ->
  coherent T (P := P) (niche_enum vs u ut off it nvs ns inv dty size align).
Proof. exact (niche_enum_coherent T ht vs u ut off it nvs ns inv dty size align). Qed.
Print Assumptions C58_niche_enum_coherent.

Theorem C58_option_ref_coherent {P} `{EqDecision P} T ht m pi :
  target_ok T -> layout_meta_kind (pi_layout pi) = MKNone ->
  ty_check_wf T ht (option_ref T m pi) = Ret tt -> coherent T (P := P) (option_ref T m pi).
Proof. intros Tok. exact (option_ref_coherent T Tok ht m pi). Qed.
Print Assumptions C58_option_ref_coherent.

Example C58_hyps : ty_check_wf x86_64 ht0 (option_ref x86_64 Mutable pi4) = Ret tt /\
  ty_check_wf x86_64 ht0 ex_enum = Ret tt.
Proof. split; vm_compute; reflexivity. Qed.
