(** Base definitions: outcomes, integers, sizes, alignments, byte orders and list helpers.
    The repository takes these from the external crate libspecr (spec/prelude/main.md:8 and
    spec/lang/prelude.md), which is not part of the repository. Their documented behaviour is
    modelled here and is part of the trusted base. *)
From Coq Require Export ZArith NArith Lia Bool String.
From Coq.Strings Require Export Byte.
From stdpp Require Export base option list.

#[global] Open Scope Z_scope.

(** ** Outcomes *)

(** spec/prelude/main.md:21-34 TerminationInfo *)
Inductive TermInfo :=
| TUb (msg : string)
| TMachineStop
| TAbort
| TIllFormed (msg : string)
| TDeadlock
| TMemoryLeak.

(** spec/prelude/main.md:19 Result and :78 NdResult. [Panic] stands for a Rust panic (failed
    assertion, unwrap, index out of range), [NoBehavior] for a nondeterministic choice that the
    predicate given to pick/predict rejects. *)
Inductive Outcome (A : Type) :=
| Ret (a : A)
| Stop (t : TermInfo)
| Panic
| NoBehavior.
Arguments Ret {A} a.
Arguments Stop {A} t.
Arguments Panic {A}.
Arguments NoBehavior {A}.

(** The [?] operator of Rust on Result/NdResult; panics propagate as well. *)
Definition obind {A B} (m : Outcome A) (f : A -> Outcome B) : Outcome B :=
  match m with
  | Ret a => f a
  | Stop t => Stop t
  | Panic => Panic
  | NoBehavior => NoBehavior
  end.

Notation "'let!' x ':=' m 'in' k" := (obind m (fun x => k))
  (at level 200, x binder, m at level 100, k at level 200, right associativity).
Notation "'let!' ' p ':=' m 'in' k" := (obind m (fun x => match x with p => k end))
  (at level 200, p pattern, m at level 100, k at level 200, right associativity).

(** spec/prelude/main.md:43-47 throw_ub *)
Definition throw_ub {A} (msg : string) : Outcome A := Stop (TUb msg).
(** spec/prelude/main.md:64-68 throw_ill_formed *)
Definition throw_ill_formed {A} (msg : string) : Outcome A := Stop (TIllFormed msg).

(** Rust's assert! and debug checks *)
Definition assert_ (b : bool) : Outcome unit := if b then Ret tt else Panic.

(** Option::unwrap *)
Definition unwrap {A} (o : option A) : Outcome A :=
  match o with Some a => Ret a | None => Panic end.

(** Whether an outcome is (any) undefined behaviour. *)
Definition is_ub {A} (o : Outcome A) : Prop := exists msg, o = Stop (TUb msg).

(** Result::is_ok: [Some] of the verdict if the computation did not panic *)
Definition is_ok {A} (o : Outcome A) : Outcome bool :=
  match o with
  | Ret _ => Ret true
  | Stop _ => Ret false
  | Panic => Panic
  | NoBehavior => NoBehavior
  end.

(** ** Integers *)

(** libspecr Signedness, Endianness *)
Inductive Signedness := Signed | Unsigned.
Inductive Endianness := LittleEndian | BigEndian.

#[global] Instance Signedness_eq_dec : EqDecision Signedness.
Proof. solve_decision. Defined.

(** libspecr Size: a number of bytes. Non-negative by construction, as in Rust. *)
Notation Size := N (only parsing).
(** spec/prelude/main.md:15 Offset *)
Notation Offset := N (only parsing).

(** libspecr Size::bits *)
Definition size_bits (s : Size) : Z := 8 * Z.of_N s.

(** libspecr Size::from_bytes: fails for negative numbers *)
Definition size_from_bytes (i : Z) : option Size :=
  if i <? 0 then None else Some (Z.to_N i).

(** libspecr Int::in_bounds: whether the integer fits the finite integer type. The only value of
    a zero-sized integer type is 0. *)
Definition in_bounds (sg : Signedness) (s : Size) (i : Z) : bool :=
  if (s =? 0)%N then i =? 0 else
  match sg with
  | Unsigned => (0 <=? i) && (i <? 2 ^ size_bits s)
  | Signed => (- 2 ^ (size_bits s - 1) <=? i) && (i <? 2 ^ (size_bits s - 1))
  end.

(** libspecr Int::bring_in_bounds: two's-complement wrapping *)
Definition bring_in_bounds (sg : Signedness) (s : Size) (i : Z) : Z :=
  if (s =? 0)%N then 0 else
  match sg with
  | Unsigned => i mod 2 ^ size_bits s
  | Signed => (i + 2 ^ (size_bits s - 1)) mod 2 ^ size_bits s - 2 ^ (size_bits s - 1)
  end.

(** libspecr Int::is_power_of_two *)
Definition is_power_of_two (n : N) : bool :=
  negb (n =? 0)%N && (n =? 2 ^ N.log2 n)%N.

(** libspecr Align: always a power of two; we store the exponent. *)
Record Align := mkAlign { align_log2 : N }.

#[global] Instance Align_eq_dec : EqDecision Align.
Proof. solve_decision. Defined.

(** libspecr Align::bytes *)
Definition align_bytes (a : Align) : N := (2 ^ align_log2 a)%N.
(** libspecr Align::ONE *)
Definition align_one : Align := mkAlign 0.
(** libspecr Align::from_bytes *)
Definition align_from_bytes (n : N) : option Align :=
  if is_power_of_two n then Some (mkAlign (N.log2 n)) else None.
(** libspecr Align::is_aligned *)
Definition is_aligned (a : Align) (addr : Z) : bool := addr mod Z.of_N (align_bytes a) =? 0.
(** libspecr: Ord on Align compares the alignment in bytes. *)
Definition align_le (a b : Align) : bool := (align_log2 a <=? align_log2 b)%N.
Definition align_min (a b : Align) : Align := mkAlign (N.min (align_log2 a) (align_log2 b)).
Definition align_max (a b : Align) : Align := mkAlign (N.max (align_log2 a) (align_log2 b)).
(** libspecr Size::align_to: the smallest multiple of the alignment that is at least the size *)
Definition align_to (s : Size) (a : Align) : Size :=
  ((s + align_bytes a - 1) / align_bytes a * align_bytes a)%N.

(** ** Bytes and byte orders *)

(** u8 *)
Definition Z_of_byte (b : byte) : Z := Z.of_N (Byte.to_N b).
Definition byte_of_Z (z : Z) : byte :=
  match Byte.of_N (Z.to_N (z mod 256)) with Some b => b | None => x00 end.

(** unsigned little-endian value of a byte string *)
Fixpoint le_decode (l : list byte) : Z :=
  match l with
  | [] => 0
  | b :: r => Z_of_byte b + 256 * le_decode r
  end.

(** the [n] low-order bytes of an integer, least significant first *)
Fixpoint le_encode (n : nat) (i : Z) : list byte :=
  match n with
  | O => []
  | S n => byte_of_Z i :: le_encode n (i / 256)
  end.

(** libspecr Endianness::decode *)
Definition endian_decode (e : Endianness) (sg : Signedness) (l : list byte) : Z :=
  let l := match e with LittleEndian => l | BigEndian => reverse l end in
  bring_in_bounds sg (N.of_nat (length l)) (le_decode l).

(** libspecr Endianness::encode: None if the integer does not fit *)
Definition endian_encode (e : Endianness) (sg : Signedness) (s : Size) (i : Z)
  : option (list byte) :=
  if in_bounds sg s i then
    let l := le_encode (N.to_nat s) i in
    Some (match e with LittleEndian => l | BigEndian => reverse l end)
  else None.

(** ** Lists *)

(** libspecr List::get and indexing with an Int *)
Definition list_get {A} (l : list A) (i : Z) : option A :=
  if i <? 0 then None else l !! Z.to_nat i.

(** libspecr list![x; n] *)
Definition list_repeat {A} (x : A) (n : N) : list A := replicate (N.to_nat n) x.

(** libspecr List::subslice_with_length: panics when out of range *)
Definition subslice {A} (l : list A) (off len : N) : Outcome (list A) :=
  if (N.to_nat off + N.to_nat len <=? length l)%nat
  then Ret (take (N.to_nat len) (drop (N.to_nat off) l))
  else Panic.

(** libspecr List::write_subslice_at_index: panics when out of range *)
Definition write_subslice {A} (l : list A) (off : N) (new : list A) : Outcome (list A) :=
  if (N.to_nat off + length new <=? length l)%nat
  then Ret (take (N.to_nat off) l ++ new ++ drop (N.to_nat off + length new) l)
  else Panic.

(** Iterator::try_for_each / a for loop with [?] *)
Definition for_each {A} (f : A -> Outcome unit) : list A -> Outcome unit :=
  fix go l := match l with
              | [] => Ret tt
              | x :: r => let! _ := f x in go r
              end.

(** a for loop that threads a state *)
Definition fold_m {A S} (f : S -> A -> Outcome S) : list A -> S -> Outcome S :=
  fix go l s := match l with
                | [] => Ret s
                | x :: r => let! s' := f s x in go r s'
                end.

(** Iterator::map with a panicking function, collected *)
Definition map_m {A B} (f : A -> Outcome B) : list A -> Outcome (list B) :=
  fix go l := match l with
              | [] => Ret []
              | x :: r => let! y := f x in let! ys := go r in Ret (y :: ys)
              end.

(** libspecr List::try_map for an Option-returning function that may panic: stops at the first
    None *)
Definition try_map {A B} (f : A -> Outcome (option B)) : list A -> Outcome (option (list B)) :=
  fix go l := match l with
              | [] => Ret (Some [])
              | x :: r =>
                  let! y := f x in
                  match y with
                  | None => Ret None
                  | Some y => let! ys := go r in Ret (option_map (cons y) ys)
                  end
              end.

(** libspecr Map, as an association list in iteration order *)
Definition map_get {K V} `{EqDecision K} (m : list (K * V)) (k : K) : option V :=
  match List.find (fun kv => bool_decide (fst kv = k)) m with
  | Some kv => Some (snd kv)
  | None => None
  end.
Definition map_contains {K V} `{EqDecision K} (m : list (K * V)) (k : K) : bool :=
  match map_get m k with Some _ => true | None => false end.
(** Map::insert: replaces the value of an existing key, else adds it *)
Fixpoint map_insert {K V} `{EqDecision K} (m : list (K * V)) (k : K) (v : V) : list (K * V) :=
  match m with
  | [] => [(k, v)]
  | (k', v') :: r => if bool_decide (k' = k) then (k, v) :: r else (k', v') :: map_insert r k v
  end.
(** Map::remove *)
Definition map_remove {K V} `{EqDecision K} (m : list (K * V)) (k : K) : list (K * V) :=
  List.filter (fun kv => negb (bool_decide (fst kv = k))) m.

(** libspecr List::sort_by_key: a stable sort *)
Fixpoint insert_by_key {A} (key : A -> N) (x : A) (l : list A) : list A :=
  match l with
  | [] => [x]
  | y :: r => if (key x <=? key y)%N then x :: y :: r else y :: insert_by_key key x r
  end.
Fixpoint sort_by_key {A} (key : A -> N) (l : list A) : list A :=
  match l with
  | [] => []
  | x :: r => insert_by_key key x (sort_by_key key r)
  end.

(** Lookup followed by a function; the same as [option_map f (map_get m k)], in a form that allows
    structural recursion through the map. *)
Definition map_get_with {K V R} `{EqDecision K} (f : V -> R) (k : K) : list (K * V) -> option R :=
  fix go m := match m with
              | [] => None
              | (k', v) :: r => if bool_decide (k' = k) then Some (f v) else go r
              end.

(** a for loop over the zip of two lists (stops at the end of the shorter one) *)
Definition for_each2 {A B} (f : A -> B -> Outcome unit) : list A -> list B -> Outcome unit :=
  fix go l1 l2 := match l1, l2 with
                  | x :: r1, y :: r2 => let! _ := f x y in go r1 r2
                  | _, _ => Ret tt
                  end.

(** a for loop over the zip of two lists that threads a state *)
Definition fold_m2 {A B S} (f : S -> A -> B -> Outcome S)
  : list A -> list B -> S -> Outcome S :=
  fix go l1 l2 s := match l1, l2 with
                    | x :: r1, y :: r2 => let! s' := f s x y in go r1 r2 s'
                    | _, _ => Ret s
                    end.

(** equal length and all zipped pairs satisfy the relation *)
Definition forall2b {A B} (f : A -> B -> bool) : list A -> list B -> bool :=
  fix go l1 l2 := match l1, l2 with
                  | [], [] => true
                  | x :: r1, y :: r2 => f x y && go r1 r2
                  | _, _ => false
                  end.
