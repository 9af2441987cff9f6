(** Property theorems for integer to string conversion: C04.  A [Ret] outcome
    means that no write or read left the buffer and no signed overflow happened. *)
From Coq Require Import ZArith List Ascii String.
From Verif Require Import Base IntStrModel IntStrSpec IntStrProofs.
Import ListNotations.
Open Scope Z_scope.

Theorem C04_unsigned_decimal : forall val, 0 <= val < 2 ^ 64 ->
  exists s, uint_to_string val = Ret s /\ unsigned_numeral s val.
Proof. exact uint_to_string_ok. Qed.
Print Assumptions C04_unsigned_decimal.

Theorem C04_signed_decimal : forall val, - 2 ^ 63 <= val <= 2 ^ 63 - 1 ->
  exists s, int_to_string val = Ret s /\ signed_numeral s val.
Proof. exact int_to_string_ok. Qed.
Print Assumptions C04_signed_decimal.

Theorem C04_unsigned_injective : forall v w s, 0 <= v < 2 ^ 64 -> 0 <= w < 2 ^ 64 ->
  uint_to_string v = Ret s -> uint_to_string w = Ret s -> v = w.
Proof. exact uint_to_string_inj. Qed.
Print Assumptions C04_unsigned_injective.

Theorem C04_signed_injective : forall v w s,
  - 2 ^ 63 <= v <= 2 ^ 63 - 1 -> - 2 ^ 63 <= w <= 2 ^ 63 - 1 ->
  int_to_string v = Ret s -> int_to_string w = Ret s -> v = w.
Proof. exact int_to_string_inj. Qed.
Print Assumptions C04_signed_injective.

Example C04_extremes :
  int_to_string (- 2 ^ 63) = Ret (list_ascii_of_string "-9223372036854775808") /\
  uint_to_string (2 ^ 64 - 1) = Ret (list_ascii_of_string "18446744073709551615") /\
  int_to_string 0 = Ret ["0"%char].
Proof. repeat split; vm_compute; reflexivity. Qed.
