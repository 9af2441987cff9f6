(** Specification vocabulary for the exact-real theorems: finite sums and the
    Euclidean notions of R^n, on functions from indices to reals. *)
From Coq Require Import Reals.
Open Scope R_scope.

(** f 0 + ... + f (n-1) *)
Fixpoint Rsum (n : nat) (f : nat -> R) : R :=
  match n with
  | O => 0
  | S k => Rsum k f + f k
  end.

Definition inner (n : nat) (a b : nat -> R) : R := Rsum n (fun i => a i * b i).
Definition norm2 (n : nat) (a : nat -> R) : R := inner n a a.
Definition norm (n : nat) (a : nat -> R) : R := sqrt (norm2 n a).
Definition dist2 (n : nat) (a b : nat -> R) : R := norm2 n (fun i => a i - b i).
Definition dist (n : nat) (a b : nat -> R) : R := sqrt (dist2 n a b).
Definition delta (i j : nat) : R := if Nat.eqb i j then 1 else 0.
