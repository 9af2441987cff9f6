(** C61 in doubles: how close PoissonConditional is to the true probability. *)
From Coq Require Import ZArith Reals SpecFloat Lra Lia.
From Flocq Require Import Core IEEE754.BinarySingleNaN.
From Verif Require Import Base Scalar ConstSpec B64Lib B64Ops RoundLib RoundProofs2 PropBoxDouble SeriesDouble2.
From Verif Require ProbProofs6.
From Verif Require Import ProbModel ProbDoubleModel ProbSpec RoundSpec.
Open Scope R_scope.

(** With a mean up to n + 1, PoissonConditional(mean, n) in doubles is the probability of n given n or more, up to a relative error of
    11 (n + 60) half units in the last place, as soon as the loop may take n + 60 steps.  Nothing is assumed about exp and log. *)
Theorem C61_poisson_conditional_accuracy_double : forall (m : libm) (e l : spec_float -> spec_float) mean n t,
  finite_double mean -> 0 < real mean <= IZR n + 1 -> (1 <= n < 2 ^ 32 - 1)%Z -> poisson_tail (real mean) (Z.to_nat n) t ->
  let truth := poisson_pmf (real mean) (Z.to_nat n) / t in
  exists h, finite_double h /\ Rabs (real h - truth) <= 11 * (IZR n + 60) * half_ulp * truth /\
    forall steps, (Z.to_nat n + 60 <= steps)%nat -> poisson_conditional (H := B64 m) (H0 := Btrans e l) steps mean n = Some (Ret h).
Proof.
  intros m e l mu n t Fm Bm Hn T truth. apply fl_iff in Fm. destruct (conditional_close m e l mu n t Fm Bm Hn T) as (h & F & C & E). exists h. split; [now apply fl_iff|]. split; [exact C|exact E].
Qed.
Print Assumptions C61_poisson_conditional_accuracy_double.
(** PoissonConditional(3, 4). *)
Example C61_poisson_conditional_accuracy_example : finite_double (b64_ofZ 3) /\ 0 < real (b64_ofZ 3) <= IZR 4 + 1 /\ (1 <= 4 < 2 ^ 32 - 1)%Z /\ exists t, poisson_tail (real (b64_ofZ 3)) (Z.to_nat 4) t.
Proof.
  split; [apply fl_iff; split; vm_compute; reflexivity|]. change (real (b64_ofZ 3)) with (val (b64_ofZ 3)). rewrite v3. split; [lra|]. split; [lia|]. eexists. apply ProbProofs6.tail_exists.
Qed.
