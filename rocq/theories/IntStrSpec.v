(** Decimal numerals, independently of how they are produced. *)
From Coq Require Import ZArith List Ascii Bool.
Import ListNotations.
Open Scope Z_scope.

(** Value of one decimal digit character. *)
Definition digit_val (c : ascii) : option Z :=
  let n := Z.of_nat (nat_of_ascii c) in
  if (48 <=? n) && (n <=? 57) then Some (n - 48) else None.

(** Value of a string of digits, most significant first. *)
Fixpoint digits_val (acc : Z) (s : list ascii) : option Z :=
  match s with
  | [] => Some acc
  | c :: t => match digit_val c with Some d => digits_val (10 * acc + d) t | None => None end
  end.

(** Unsigned numeral: at least one digit, no superfluous leading zero. *)
Definition canonical_unsigned (s : list ascii) : Prop :=
  s = ["0"%char] \/
  exists c t, s = c :: t /\ c <> "0"%char.
Definition unsigned_numeral (s : list ascii) (v : Z) : Prop :=
  canonical_unsigned s /\ s <> [] /\ digits_val 0 s = Some v.

(** Signed numeral: a minus sign exactly for negative values. *)
Definition signed_numeral (s : list ascii) (v : Z) : Prop :=
  (0 <= v /\ unsigned_numeral s v) \/
  (v < 0 /\ exists t, s = "-"%char :: t /\ unsigned_numeral t (- v)).
