(** Specification of printed text. *)
From Coq Require Import Ascii String.
From Verif Require Export MachSpec.

(** the number written by a string of decimal digits, read after the number [acc] *)
Definition digit_value (c : Ascii.ascii) : option N :=
  let n := Ascii.N_of_ascii c in
  if ((48 <=? n) && (n <=? 57))%N then Some (n - 48)%N else None.
Fixpoint numeral (acc : N) (s : string) : option N :=
  match s with
  | EmptyString => Some acc
  | String c r =>
      match digit_value c with
      | Some d => numeral (10 * acc + d)%N r
      | None => None
      end
  end.
(** the decimal numeral of a natural number, without leading zeros *)
Definition decimal_nat (n : N) (s : string) : Prop :=
  numeral 0 s = Some n /\ s <> EmptyString /\ (s = "0"%string \/ forall r, s <> String "0"%char r).
(** of an integer *)
Definition decimal_int (i : Z) (s : string) : Prop :=
  (0 <= i /\ decimal_nat (Z.to_N i) s) \/
  (i < 0 /\ exists r, s = String "-"%char r /\ decimal_nat (Z.to_N (- i)) r).

(** a printed value: an integer or a boolean, on a line of its own *)
Definition line_end : string := String (Ascii.ascii_of_nat 10) EmptyString.
Inductive line {P} : Value P -> string -> Prop :=
| line_int i s : decimal_int i s -> line (VInt i) (s ++ line_end)%string
| line_true : line (VBool true) ("true" ++ line_end)%string
| line_false : line (VBool false) ("false" ++ line_end)%string.
Inductive lines {P} : list (Value P * Ty) -> string -> Prop :=
| lines_nil : lines [] EmptyString
| lines_cons v ty vs s r : line v s -> lines vs r -> lines ((v, ty) :: vs) (s ++ r)%string.

(** [s] begins with [p] *)
Definition begins_with (p s : string) : Prop := exists r, s = (p ++ r)%string.
