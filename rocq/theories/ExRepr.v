(** Concrete types and values on x86_64, used beside the theorems to show that their hypotheses can
    be met. *)
From Verif Require Export EnumsProofs ReprMore.

Definition ht0 : TraitName -> bool := fun _ => false.

(** a machine state in which everything is dereferenceable and there are no vtables *)
Definition env0 : ChkEnv N :=
  mkChkEnv (fun _ _ => Ret tt) (fun _ => throw_ub "no vtable") (fun _ => Panic).

Lemma env0_sound : env_sound env0.
Proof.
  split; [|split].
  - intros p s. left. by eexists.
  - intros p. right. by eexists.
  - intros p vt [=].
Qed.

Definition u8_t := mkIntTy Unsigned 1.
Definition u32_t := mkIntTy Unsigned 4.
Definition i16_t := mkIntTy Signed 2.

(** a pointee of 4 bytes, and slices of 2-byte elements *)
Definition pi4 := mkPointee (LSized 4 (mkAlign 2)) true (CSized []) true true.
Definition pis := mkPointee (LSlice 2 (mkAlign 1)) true (CSlice []) true true.

(** enum { A(u8), B } with the tag in byte 0 *)
Definition ex_enum : Ty :=
  direct_enum [(0, TTuple [(1%N, TInt u8_t)] (mkHead 2 align_one None) None);
               (1, TTuple [] (mkHead 2 align_one None) None)]
              0 u8_t (mkIntTy Signed 8) 2 align_one.

(** (u32, Option<&mut T4>, [i16; 3], &[i16], union { u32, u8 }, enum) *)
Definition ex_ty : Ty :=
  TTuple [(0%N, TInt u32_t); (8%N, option_ref x86_64 Mutable pi4);
          (16%N, TArray (TInt i16_t) 3); (24%N, TPtr (PRef Immutable pis));
          (40%N, TUnion [(0%N, TInt u32_t); (0%N, TInt u8_t)] [(0%N, 4%N)] 4 (mkAlign 2));
          (44%N, ex_enum); (46%N, TBool)]
         (mkHead 47 (mkAlign 3) None) None.

Definition ex_val : Value N :=
  VTuple [VInt 305419896; VVariant 1 (VTuple [VPtr (mkPtr (mkThin 4096 (Some 7%N)) None)]);
          VTuple [VInt (-2); VInt 300; VInt 0];
          VPtr (mkPtr (mkThin 8192 (Some 9%N)) (Some (MElementCount 5)));
          VUnion [[Init x01 None; Uninit; Uninit; Uninit]];
          VVariant 0 (VTuple [VInt 200]); VBool true].

Lemma ex_ty_wf : ty_check_wf x86_64 ht0 ex_ty = Ret tt.
Proof. vm_compute. reflexivity. Qed.
Lemma ex_ty_size : size_of x86_64 ex_ty = Ret 48%N.
Proof. vm_compute. reflexivity. Qed.
Lemma ex_val_ok : check_value x86_64 env0 ex_ty ex_val = Ret tt.
Proof. vm_compute. reflexivity. Qed.

Lemma ex_enum_coherent : coherent x86_64 (P := N) ex_enum.
Proof.
  apply (direct_enum_coherent x86_64 ht0).
  - vm_compute. reflexivity.
  - apply NoDup_ListNoDup. repeat (apply List.NoDup_cons; [simpl; intuition discriminate|]). constructor.
  - repeat constructor; discriminate.
  - intros d t i [[= <- <-]|[[= <- <-]|[]]] Hi Hu; simpl in Hi.
    + inversion Hu; subst. match goal with H : In _ _ |- _ => destruct H as [[= <- <-]|[]] end. lia.
    + inversion Hu; subst. match goal with H : In _ _ |- _ => destruct H end.
Qed.

Lemma ex_ty_coherent : coherent x86_64 (P := N) ex_ty.
Proof.
  constructor; [|discriminate].
  assert (coherent x86_64 (P := N) (option_ref x86_64 Mutable pi4)).
  { apply (option_ref_coherent x86_64 x86_64_ok ht0); [done|]. vm_compute. reflexivity. }
  repeat apply List.Forall_cons; try apply List.Forall_nil; cbn [snd];
    first [assumption | apply ex_enum_coherent | repeat constructor].
Qed.

(** ** Enums that pass the well-formedness check but whose tag destroys data (finding 7) *)

(** one variant (u8) whose tagger overwrites the only data byte *)
Definition bad_enum_overlap : Ty :=
  TEnum [(0, (TTuple [(0%N, TInt u8_t)] (mkHead 1 align_one None) None, [(0%N, (u8_t, 0))]))]
        (mkIntTy Signed 8) (DKnown 0) 1 align_one.

(** one empty variant whose tagger writes 7 although the discriminator accepts every byte *)
Definition bad_enum_tag : Ty :=
  TEnum [(0, (TTuple [] (mkHead 1 align_one None) None, [(0%N, (u8_t, 7))]))]
        (mkIntTy Signed 8) (DKnown 0) 1 align_one.

(** one variant without tagger that the discriminator does not know *)
Definition bad_enum_unknown : Ty :=
  TEnum [(0, (TTuple [] (mkHead 1 align_one None) None, []))]
        (mkIntTy Signed 8) DInvalid 1 align_one.
