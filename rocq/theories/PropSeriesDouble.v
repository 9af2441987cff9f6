(** C61 in doubles: PoissonConditional by the power series. *)
From Coq Require Import ZArith Reals SpecFloat Lra Lia.
From Flocq Require Import Core IEEE754.BinarySingleNaN.
From Verif Require Import Base Scalar ConstSpec B64Lib B64Ops RoundLib RoundProofs2 PropBoxDouble SeriesDouble.
From Verif Require Import ProbModel ProbDoubleModel RoundSpec.
Open Scope R_scope.

(** PoissonConditional(mean, n) in doubles with a mean up to n + 1 ends, after at most n + 60 steps; no assertion fails, and the value is a
    positive number not above 1.  Nothing is assumed about exp and log. *)
Theorem C61_poisson_conditional_double : forall (m : libm) (e l : spec_float -> spec_float) mean n,
  finite_double mean -> 0 < real mean <= IZR n + 1 -> (1 <= n < 2 ^ 32 - 1)%Z ->
  forall steps, (Z.to_nat n + 60 <= steps)%nat ->
  exists h, poisson_conditional (H := B64 m) (H0 := Btrans e l) steps mean n = Some (Ret h) /\ finite_double h /\ 0 < real h <= 1.
Proof.
  intros m e l mu n Fm Bm Hn steps Hs. apply fl_iff in Fm. destruct (conditional_ends m e l mu n Fm Bm Hn steps Hs) as (h & E & F & B). exists h. split; [exact E|]. split; [now apply fl_iff|exact B].
Qed.
Print Assumptions C61_poisson_conditional_double.
(** PoissonConditional(3, 4). *)
Example C61_poisson_conditional_double_example : finite_double (b64_ofZ 3) /\ 0 < real (b64_ofZ 3) <= IZR 4 + 1 /\ (1 <= 4 < 2 ^ 32 - 1)%Z.
Proof. split; [apply fl_iff; split; vm_compute; reflexivity|]. change (real (b64_ofZ 3)) with (val (b64_ofZ 3)). rewrite v3. split; [lra|lia]. Qed.
