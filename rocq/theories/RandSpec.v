(** Specification vocabulary for seeding from the environment. *)
From Coq Require Import List ZArith NArith.
From Verif Require Import MTModel RandModel.
Import ListNotations.
Open Scope N_scope.

(** All 624 words can be read from the device, and they are [l]. *)
Definition delivers (e : surroundings) (l : list N) : Prop :=
  exists f, device e = Some f /\ length l = 624%nat /\ forall i, (i < 624)%nat -> f i = nth_error l i.
(** The device is missing or fails before the last word. *)
Definition no_device (e : surroundings) : Prop :=
  device e = None \/ exists f k, device e = Some f /\ (k < 624)%nat /\ f k = None.
(** What is read are words. *)
Definition words_only (e : surroundings) : Prop := forall f k w, device e = Some f -> f k = Some w -> w < 2 ^ 32.

(** The eight bytes, lowest first, of a 64-bit integer in two's complement: byte k is the k-th digit to the base 256 of z mod 2^64. *)
Definition bytes8 (z : Z) : list N := map (fun k => Z.to_N ((z mod 2 ^ 64 / 256 ^ Z.of_nat k) mod 256)) (seq 0 8).
(** The bytes of a number as digits to the base 257, the first byte of memory being the most significant digit. *)
Definition bytes_value (l : list N) : N := fold_left (fun v b => 257 * v + b) l 0.
(** The seed made from time and clock by the d-th call. *)
Definition clock_seed (t c : Z) (d : N) : N :=
  N.lxor ((bytes_value (bytes8 t) + d) mod 2 ^ 32) (bytes_value (bytes8 c) mod 2 ^ 32).
