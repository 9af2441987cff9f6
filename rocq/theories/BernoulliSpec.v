(** The Bernoulli numbers (C53). *)
From Coq Require Import ZArith Reals.
Open Scope R_scope.

(** Pascal's triangle *)
Fixpoint binom (n k : nat) : Z :=
  match n, k with
  | _, O => 1
  | O, S _ => 0
  | S n, S k => (binom n k + binom n (S k))%Z
  end.
(** f 0 + ... + f (n-1) *)
Fixpoint sum_below (f : nat -> R) (n : nat) : R := match n with O => 0 | S k => sum_below f k + f k end.
(** B_0 = 1 and C(n+1,0) B_0 + ... + C(n+1,n) B_n = 0 for n > 0 *)
Definition bernoulli (b : nat -> R) : Prop :=
  b 0%nat = 1 /\ forall n, (1 <= n)%nat -> sum_below (fun k => IZR (binom (n + 1) k) * b k) (n + 1) = 0.
