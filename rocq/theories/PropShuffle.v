(** Property theorems for Shuffle: C10. *)
From Coq Require Import List NArith Permutation.
From Verif Require Import Base MTModel MTSpec ShuffleModel ShuffleSpec ShuffleProofs.
Import ListNotations.
Open Scope nat_scope.

Theorem C10_shuffle_permutes : forall (C : Type) (v : list C) choices,
  valid_choices (length v) choices -> exists w, shuffle v choices = Ret w /\ Permutation v w.
Proof. exact @shuffle_perm. Qed.
Print Assumptions C10_shuffle_permutes.

(** Every arrangement of distinct elements comes from exactly one choice sequence. *)
Theorem C10_shuffle_bijection : forall (C : Type) (v w : list C),
  NoDup v -> Permutation v w ->
  exists! choices, valid_choices (length v) choices /\ shuffle v choices = Ret w.
Proof. exact @shuffle_bijection. Qed.
Print Assumptions C10_shuffle_bijection.

(** The same for the loop as it draws from the generator, in any generator state. *)
Theorem C10_shuffle_with_generator : forall (C : Type) fuel g (v w : list C) g',
  mt_typed g -> (N.of_nat (length v) <= 2 ^ 32)%N ->
  shuffle_mt fuel g v = Ret (Some (w, g')) -> Permutation v w /\ mt_typed g'.
Proof. exact @shuffle_mt_perm. Qed.
Print Assumptions C10_shuffle_with_generator.

Theorem C10_shuffle_defined : forall (C : Type) fuel g (v : list C),
  mt_typed g -> (N.of_nat (length v) <= 2 ^ 32)%N -> exists r, shuffle_mt fuel g v = Ret r.
Proof. exact @shuffle_mt_defined. Qed.
Print Assumptions C10_shuffle_defined.

Example C10_hypotheses : valid_choices (length [10; 20; 30]) [0; 1] /\ shuffle [10; 20; 30] [0; 1] = Ret [30; 20; 10].
Proof. repeat split; repeat constructor. Qed.
