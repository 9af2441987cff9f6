(** Specification of the Mersenne twister as an infinite recurrence. *)
From Coq Require Import List ZArith NArith Bool Ascii.
From Verif Require Import Base MTModel IntStrSpec.
Import ListNotations.
Open Scope N_scope.

Definition is_word (x : N) : Prop := x < 2 ^ 32.

(** A generator object as the C++ type allows it: 624 words and a 32-bit index. *)
Definition mt_typed (g : mtrand) : Prop :=
  length (st g) = 624%nat /\ Forall is_word (st g) /\ is_word (idx g).

(** Arguments allowed by the C++ types; seed arrays are not empty. *)
Definition mt_op_ok (o : mt_op) : Prop :=
  match o with
  | MSeed s => is_word s
  | MSeedArray l => l <> [] /\ Forall is_word l
  | MLoad l i => length l = 624%nat /\ Forall is_word l /\ is_word i
  | MRand => True
  end.

(** MT19937: the high bit of one word and the low 31 bits of the next, multiplied
    by the twist matrix. *)
Definition mt_twist (u v : N) : N :=
  let y := (2 ^ 31) * (u / 2 ^ 31) + v mod 2 ^ 31 in
  N.lxor (y / 2) (if N.odd y then 0x9908b0df else 0).

(** MT19937 output tempering. *)
Definition mt_temper (y0 : N) : N :=
  let y1 := N.lxor y0 (N.shiftr y0 11) in
  let y2 := N.lxor y1 (N.land (N.shiftl y1 7) 0x9d2c5680) in
  let y3 := N.lxor y2 (N.land (N.shiftl y2 15) 0xefc60000) in
  N.lxor y3 (N.shiftr y3 18).

(** [x] is the MT19937 sequence started from the block [s]. *)
Definition mt_sequence (s : list N) (x : nat -> N) : Prop :=
  (forall i, (i < 624)%nat -> nth_error s i = Some (x i)) /\
  (forall k, x (k + 624)%nat = N.lxor (x (k + 397)%nat) (mt_twist (x k) (x (k + 1)%nat))).

(** Number of 32-bit words with a given property.  (Only reasoned about; the
    list has 2^32 elements.) *)
Definition count_below (k : nat) (P : N -> bool) : nat := length (filter P (map N.of_nat (seq 0 k))).
Definition count_words (P : N -> bool) : N := N.of_nat (count_below (N.to_nat (2 ^ 32)) P).

(** [pr] prints words as canonical decimal numerals. *)
Definition prints_decimal (pr : N -> list ascii) : Prop :=
  forall w, is_word w -> unsigned_numeral (pr w) (Z.of_N w).

(** The text that follows does not continue the last number. *)
Definition no_digit_first (s : list ascii) : Prop :=
  match s with [] => True | c :: _ => digit_val c = None end.
