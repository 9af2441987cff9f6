(** Property theorems C11, C12, C13 (const.h, const.cpp). *)
From Coq Require Import ZArith Reals Bool SpecFloat Lia Lra.
From Flocq Require Import Core.Zaux Core.Raux.
From Verif Require Import Scalar ConstModel ConstSpec OrdLib RLib ConstProofs.
Open Scope R_scope.

(** C11, for IEEE doubles *)
Theorem C11_equal_reflexive : forall (m : libm) x e,
  finite_double x -> tolerance e -> equal (H := B64 m) x x e = true.
Proof. exact equal_refl_b64. Qed.
Print Assumptions C11_equal_reflexive.

Theorem C11_equal_symmetric : forall (m : libm) x y e,
  equal (H := B64 m) x y e = equal (H := B64 m) y x e.
Proof. exact equal_sym_b64. Qed.
Print Assumptions C11_equal_symmetric.

Theorem C11_equal_monotone : forall (m : libm) x y e e',
  is_double e -> is_double e' -> SFleb e e' = true ->
  equal (H := B64 m) x y e = true -> equal (H := B64 m) x y e' = true.
Proof. exact equal_mono_b64. Qed.
Print Assumptions C11_equal_monotone.

Theorem C11_nan_never_equal : forall (m : libm) x e,
  equal (H := B64 m) x S754_nan e = false /\ equal (H := B64 m) S754_nan x e = false.
Proof. exact equal_nan_b64. Qed.
Print Assumptions C11_nan_never_equal.

(** ... and for exact reals *)
Theorem C11_equal_reals : forall eps x y e e', 0 <= e ->
  equal (H := Rnum eps) x x e = true /\
  equal (H := Rnum eps) x y e = equal (H := Rnum eps) y x e /\
  (e <= e' -> equal (H := Rnum eps) x y e = true -> equal (H := Rnum eps) x y e' = true).
Proof. exact (fun eps x y e e' H => conj (equal_R_refl eps x e H) (conj (equal_R_sym eps x y e) (equal_R_mono eps x y e e'))). Qed.
Print Assumptions C11_equal_reals.

Example C11_example :
  let m := Build_libm (fun x => x) (fun x => x) (fun x => x) (fun x _ => x) 0 in
  let third := SFdiv prec64 emax64 (b64_ofZ 1) (b64_ofZ 3) in
  finite_double third /\ tolerance b64_eps /\
  equal (H := B64 m) third (SFsucc prec64 emax64 third) b64_eps = true /\
  equal (H := B64 m) third (b64_ofZ 1) b64_eps = false /\
  (* the smallest subnormal *)
  finite_double (S754_finite false 1 (-1074)) /\
  equal (H := B64 m) (S754_infinity false) (S754_infinity false) b64_eps = false.
Proof. vm_compute. intuition (try reflexivity). Qed.

(** C12, exact arithmetic *)
Theorem C12_equal_implies_close : forall eps x y e, 0 <= e -> x <> 0 -> y <> 0 ->
  equal (H := Rnum eps) x y e = true -> Rabs (x - y) <= 2 * e * Rmin (Rabs x) (Rabs y).
Proof. exact equal_R_upper. Qed.
Print Assumptions C12_equal_implies_close.

Theorem C12_close_implies_equal : forall eps x y e, 0 <= e -> x <> 0 -> y <> 0 ->
  Rabs (x - y) <= e * Rmin (Rabs x) (Rabs y) -> equal (H := Rnum eps) x y e = true.
Proof. exact equal_R_lower. Qed.
Print Assumptions C12_close_implies_equal.

Theorem C12_tolerance_is_power_of_two : forall eps x y e k, x <> 0 -> y <> 0 ->
  bpow radix2 (k - 1) <= Rmin (Rabs x) (Rabs y) < bpow radix2 k ->
  (equal (H := Rnum eps) x y e = true <-> Rabs (x - y) <= e * bpow radix2 k).
Proof. exact equal_R_exact. Qed.
Print Assumptions C12_tolerance_is_power_of_two.

(** the zero case: the tolerance is absolute *)
Theorem C12_zero_absolute : forall eps x y e, x = 0 \/ y = 0 ->
  (equal (H := Rnum eps) x y e = true <-> Rabs (x - y) <= e).
Proof. exact equal_R_zero. Qed.
Print Assumptions C12_zero_absolute.

Example C12_example : bpow radix2 (2 - 1) <= Rmin (Rabs 3) (Rabs (31/10)) < bpow radix2 2 /\
  equal (H := Rnum 0) 3 (31/10) (1/40) = true /\ equal (H := Rnum 0) 3 (31/10) (1/41) = false.
Proof.
  assert (A : Rmin (Rabs 3) (Rabs (31/10)) = 3) by (rewrite !Rabs_pos_eq by lra; apply Rmin_left; lra).
  assert (B : bpow radix2 (2 - 1) <= Rmin (Rabs 3) (Rabs (31/10)) < bpow radix2 2) by (rewrite A; simpl; lra).
  split; [exact B|]. pose proof (fun e => equal_R_exact 0 3 (31/10) e 2 ltac:(lra) ltac:(lra) B) as E.
  assert (D : Rabs (3 - 31/10) = 1/10) by (rewrite Rabs_left; lra).
  split.
  - apply E. rewrite D. simpl. lra.
  - destruct (equal (H := Rnum 0) 3 (31/10) (1/41)) eqn:F; auto. apply E in F. rewrite D in F. simpl in F. lra.
Qed.

(** C13, for IEEE doubles other than NaN *)
Theorem C13_max : forall (m : libm) a b, comparable a -> comparable b ->
  (float_max (H := B64 m) a b = a \/ float_max (H := B64 m) a b = b) /\
  SFleb a (float_max (H := B64 m) a b) = true /\ SFleb b (float_max (H := B64 m) a b) = true.
Proof. exact (fun m => float_max_spec (H0 := b64ord m)). Qed.
Print Assumptions C13_max.

Theorem C13_min : forall (m : libm) a b, comparable a -> comparable b ->
  (float_min (H := B64 m) a b = a \/ float_min (H := B64 m) a b = b) /\
  SFleb (float_min (H := B64 m) a b) a = true /\ SFleb (float_min (H := B64 m) a b) b = true.
Proof. exact (fun m => float_min_spec (H0 := b64ord m)). Qed.
Print Assumptions C13_min.

Theorem C13_clamp : forall (m : libm) v lo hi, comparable v -> comparable lo -> comparable hi ->
  SFleb lo hi = true -> let r := float_clamp (H := B64 m) v lo hi in
  SFleb lo r = true /\ SFleb r hi = true /\
  (SFltb v lo = true -> r = lo) /\ (SFltb hi v = true -> r = hi) /\
  (SFltb lo v = true -> SFltb v hi = true -> r = v) /\
  (SFleb lo v = true -> SFleb v hi = true -> SFleb v r = true /\ SFleb r v = true).
Proof. exact (fun m => float_clamp_spec (H0 := b64ord m)). Qed.
Print Assumptions C13_clamp.

Example C13_example :
  let m := Build_libm (fun x => x) (fun x => x) (fun x => x) (fun x _ => x) 0 in
  comparable (b64_ofZ 3) /\ comparable (S754_infinity true) /\ SFleb (S754_infinity true) (b64_ofZ 3) = true /\
  float_clamp (H := B64 m) (b64_ofZ 5) (S754_infinity true) (b64_ofZ 3) = b64_ofZ 3 /\
  float_max (H := B64 m) (b64_ofZ 3) (S754_infinity true) = b64_ofZ 3.
Proof. vm_compute. intuition congruence. Qed.
