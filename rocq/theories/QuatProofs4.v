(** Rotation between two vectors; quaternions and matrices. *)
From Coq Require Import Reals Lra Lia List Bool Psatz ZArith NArith.
From Flocq Require Import Core.Zaux Core.Raux.
From Verif Require Import Base Scalar ConstModel VecModel RotModel QuatModel RSpec RLib VecSpec RotSpec QuatSpec VecProofs VecProofs2 MatLib RotProofs2 RotProofs3 QuatProofs QuatProofs2 QuatProofs3.
Import ListNotations.
Open Scope R_scope.

(** ** Algebra of rotation matrices *)
Lemma ham_matrix_orth q : hnorm2 q = 1 -> orthogonal 3 (ham_matrix q).
Proof.
  intros U i j Hi Hj. destruct q as [w x y z]. unfold hnorm2 in U. cbn [hw hx hy hz] in U.
  unfold mmul, mtr, delta, ham_matrix. cbn [Rsum hw hx hy hz].
  destruct i as [|[|[|]]], j as [|[|[|]]]; try lia; cbn [Nat.eqb nth].
  all: apply Rminus_diag_uniq.
  all: match goal with |- ?l = 0 => 
    first [ replace l with (4 * (x * x + y * y) * (w * w + x * x + y * y + z * z - 1)) by ring
          | replace l with (4 * (x * x + z * z) * (w * w + x * x + y * y + z * z - 1)) by ring
          | replace l with (4 * (y * y + z * z) * (w * w + x * x + y * y + z * z - 1)) by ring
          | replace l with (- 4 * (x * y) * (w * w + x * x + y * y + z * z - 1)) by ring
          | replace l with (- 4 * (x * z) * (w * w + x * x + y * y + z * z - 1)) by ring
          | replace l with (- 4 * (y * z) * (w * w + x * x + y * y + z * z - 1)) by ring] end; rewrite U; ring.
Qed.
Lemma ham_matrix_det q : hnorm2 q = 1 -> det 3 (ham_matrix q) = 1.
Proof.
  intros U. destruct q as [w x y z]. unfold hnorm2 in U. cbn [hw hx hy hz] in U.
  unfold det, det3, ham_matrix. cbn [nth hw hx hy hz].
  match goal with |- ?l = _ => 
    replace l with (1 + 4 * (x * x + y * y + z * z) * (w * w + x * x + y * y + z * z - 1)) by ring end. rewrite U. ring.
Qed.

(** For an orthogonal matrix of determinant 1 every element is its own cofactor. *)
Record rotation3 (a b c d e f g h k : R) : Prop := {
  r00 : a * a + b * b + c * c = 1; r11 : d * d + e * e + f * f = 1; r22 : g * g + h * h + k * k = 1;
  r01 : a * d + b * e + c * f = 0; r02 : a * g + b * h + c * k = 0; r12 : d * g + e * h + f * k = 0;
  c00 : a * a + d * d + g * g = 1; c11 : b * b + e * e + h * h = 1; c22 : c * c + f * f + k * k = 1;
  c01 : a * b + d * e + g * h = 0; c02 : a * c + d * f + g * k = 0; c12 : b * c + e * f + h * k = 0;
  f00 : a = e * k - f * h; f01 : b = f * g - d * k; f02 : c = d * h - e * g;
  f10 : d = c * h - b * k; f11 : e = a * k - c * g; f12 : f = b * g - a * h;
  f20 : g = b * f - c * e; f21 : h = c * d - a * f; f22 : k = a * e - b * d }.

Lemma rotation3_intro A : orthogonal 3 A -> det 3 A = 1 ->
  rotation3 (A 0 0)%nat (A 0 1)%nat (A 0 2)%nat (A 1 0)%nat (A 1 1)%nat (A 1 2)%nat (A 2 0)%nat (A 2 1)%nat (A 2 2)%nat.
Proof.
  intros O D. pose proof (orthogonal_cols 3 A O) as C. unfold orthogonal, meq, mmul, mtr, delta in O, C.
  assert (O' : forall i j, (i < 3)%nat -> (j < 3)%nat -> A i 0%nat * A j 0%nat + A i 1%nat * A j 1%nat + A i 2%nat * A j 2%nat = if Nat.eqb i j then 1 else 0).
  { intros i j Hi Hj. rewrite <- (O i j Hi Hj). cbn [Rsum]. ring. }
  assert (C' : forall i j, (i < 3)%nat -> (j < 3)%nat -> A 0%nat i * A 0%nat j + A 1%nat i * A 1%nat j + A 2%nat i * A 2%nat j = if Nat.eqb i j then 1 else 0).
  { intros i j Hi Hj. rewrite <- (C i j Hi Hj). cbn [Rsum]. ring. }
  unfold det, det3 in D. 
  pose proof (O' 0 0 ltac:(lia) ltac:(lia))%nat as R00. pose proof (O' 1 1 ltac:(lia) ltac:(lia))%nat as R11. pose proof (O' 2 2 ltac:(lia) ltac:(lia))%nat as R22.
  pose proof (O' 0 1 ltac:(lia) ltac:(lia))%nat as R01. pose proof (O' 0 2 ltac:(lia) ltac:(lia))%nat as R02. pose proof (O' 1 2 ltac:(lia) ltac:(lia))%nat as R12.
  pose proof (C' 0 0 ltac:(lia) ltac:(lia))%nat as K00. pose proof (C' 1 1 ltac:(lia) ltac:(lia))%nat as K11. pose proof (C' 2 2 ltac:(lia) ltac:(lia))%nat as K22.
  pose proof (C' 0 1 ltac:(lia) ltac:(lia))%nat as K01. pose proof (C' 0 2 ltac:(lia) ltac:(lia))%nat as K02. pose proof (C' 1 2 ltac:(lia) ltac:(lia))%nat as K12.
  cbn [Nat.eqb] in *. clear O C O' C'.
  set (a := A 0%nat 0%nat) in *. set (b := A 0%nat 1%nat) in *. set (c := A 0%nat 2%nat) in *.
  set (d := A 1%nat 0%nat) in *. set (e := A 1%nat 1%nat) in *. set (f := A 1%nat 2%nat) in *.
  set (g := A 2%nat 0%nat) in *. set (h := A 2%nat 1%nat) in *. set (k := A 2%nat 2%nat) in *.
  assert (D' : (a * (e * k - f * h) + b * (f * g - d * k) + c * (d * h - e * g)) = 1) by (rewrite <- D; ring). clear D.
  constructor; try lra.
  - apply Rminus_diag_uniq. transitivity (((a * a + d * d + g * g) - 1) * (e * k - f * h) + ((a * b + d * e + g * h) - 0) * (f * g - d * k) + ((a * c + d * f + g * k) - 0) * (d * h - e * g) - a * ((a * (e * k - f * h) + b * (f * g - d * k) + c * (d * h - e * g)) - 1)); [ring|]. rewrite K00, K01, K02, D'. ring.
  - apply Rminus_diag_uniq. transitivity (((a * b + d * e + g * h) - 0) * (e * k - f * h) + ((b * b + e * e + h * h) - 1) * (f * g - d * k) + ((b * c + e * f + h * k) - 0) * (d * h - e * g) - b * ((a * (e * k - f * h) + b * (f * g - d * k) + c * (d * h - e * g)) - 1)); [ring|]. rewrite K01, K11, K12, D'. ring.
  - apply Rminus_diag_uniq. transitivity (((a * c + d * f + g * k) - 0) * (e * k - f * h) + ((b * c + e * f + h * k) - 0) * (f * g - d * k) + ((c * c + f * f + k * k) - 1) * (d * h - e * g) - c * ((a * (e * k - f * h) + b * (f * g - d * k) + c * (d * h - e * g)) - 1)); [ring|]. rewrite K02, K12, K22, D'. ring.
  - apply Rminus_diag_uniq. transitivity (((a * a + d * d + g * g) - 1) * (h * c - k * b) + ((a * b + d * e + g * h) - 0) * (k * a - g * c) + ((a * c + d * f + g * k) - 0) * (g * b - h * a) - d * ((a * (e * k - f * h) + b * (f * g - d * k) + c * (d * h - e * g)) - 1)); [ring|]. rewrite K00, K01, K02, D'. ring.
  - apply Rminus_diag_uniq. transitivity (((a * b + d * e + g * h) - 0) * (h * c - k * b) + ((b * b + e * e + h * h) - 1) * (k * a - g * c) + ((b * c + e * f + h * k) - 0) * (g * b - h * a) - e * ((a * (e * k - f * h) + b * (f * g - d * k) + c * (d * h - e * g)) - 1)); [ring|]. rewrite K01, K11, K12, D'. ring.
  - apply Rminus_diag_uniq. transitivity (((a * c + d * f + g * k) - 0) * (h * c - k * b) + ((b * c + e * f + h * k) - 0) * (k * a - g * c) + ((c * c + f * f + k * k) - 1) * (g * b - h * a) - f * ((a * (e * k - f * h) + b * (f * g - d * k) + c * (d * h - e * g)) - 1)); [ring|]. rewrite K02, K12, K22, D'. ring.
  - apply Rminus_diag_uniq. transitivity (((a * a + d * d + g * g) - 1) * (b * f - c * e) + ((a * b + d * e + g * h) - 0) * (c * d - a * f) + ((a * c + d * f + g * k) - 0) * (a * e - b * d) - g * ((a * (e * k - f * h) + b * (f * g - d * k) + c * (d * h - e * g)) - 1)); [ring|]. rewrite K00, K01, K02, D'. ring.
  - apply Rminus_diag_uniq. transitivity (((a * b + d * e + g * h) - 0) * (b * f - c * e) + ((b * b + e * e + h * h) - 1) * (c * d - a * f) + ((b * c + e * f + h * k) - 0) * (a * e - b * d) - h * ((a * (e * k - f * h) + b * (f * g - d * k) + c * (d * h - e * g)) - 1)); [ring|]. rewrite K01, K11, K12, D'. ring.
  - apply Rminus_diag_uniq. transitivity (((a * c + d * f + g * k) - 0) * (b * f - c * e) + ((b * c + e * f + h * k) - 0) * (c * d - a * f) + ((c * c + f * f + k * k) - 1) * (a * e - b * d) - k * ((a * (e * k - f * h) + b * (f * g - d * k) + c * (d * h - e * g)) - 1)); [ring|]. rewrite K02, K12, K22, D'. ring.
Qed.

(** The ten products of components of the quaternion of a rotation matrix, times 4. *)
Definition outer (A : nat -> nat -> R) (q : ham) : Prop :=
  let a := A 0%nat 0%nat in let b := A 0%nat 1%nat in let c := A 0%nat 2%nat in
  let d := A 1%nat 0%nat in let e := A 1%nat 1%nat in let f := A 1%nat 2%nat in
  let g := A 2%nat 0%nat in let h := A 2%nat 1%nat in let k := A 2%nat 2%nat in
  4 * (hw q * hw q) = 1 + a + e + k /\ 4 * (hx q * hx q) = 1 + a - e - k /\ 4 * (hy q * hy q) = 1 - a + e - k /\
  4 * (hz q * hz q) = 1 - a - e + k /\ 4 * (hw q * hx q) = h - f /\ 4 * (hw q * hy q) = c - g /\ 4 * (hw q * hz q) = d - b /\
  4 * (hx q * hy q) = b + d /\ 4 * (hx q * hz q) = c + g /\ 4 * (hy q * hz q) = f + h.

Lemma outer_matrix A q : outer A q -> hnorm2 q = 1 /\ meq 3 (ham_matrix q) A.
Proof.
  intros (E0 & E1 & E2 & E3 & E4 & E5 & E6 & E7 & E8 & E9). split; [unfold hnorm2; lra|].
  intros i j Hi Hj. unfold ham_matrix. destruct i as [|[|[|]]], j as [|[|[|]]]; try lia; cbn [nth]; lra.
Qed.

(** A rotation matrix's product table has rank one. *)
Lemma pivot_products p s Kpp x y Kpx Kpy Kxy : 0 < s -> s * s = Kpp -> p = s / 2 -> x = Kpx * (/ 2 / s) -> y = Kpy * (/ 2 / s) -> Kpx * Kpy = Kpp * Kxy ->
  4 * (p * p) = Kpp /\ 4 * (p * x) = Kpx /\ 4 * (p * y) = Kpy /\ 4 * (x * y) = Kxy.
Proof.
  intros P S -> -> -> E. split; [lra|]. split; [field; lra|]. split; [field; lra|].
  replace (4 * (Kpx * (/ 2 / s) * (Kpy * (/ 2 / s)))) with (Kpx * Kpy / (s * s)) by (field; lra). rewrite E, <- S. field. lra.
Qed.

Section Conv.
Variables a b c d e f g h k : R.
Hypothesis Rot : rotation3 a b c d e f g h k.
Let A (i j : nat) : R := nth j (nth i [[a; b; c]; [d; e; f]; [g; h; k]] []) 0.

Lemma pivot_w s : 0 < s -> s * s = 1 + a + e + k ->
  outer A (mkH (s / 2) ((h - f) * (/ 2 / s)) ((c - g) * (/ 2 / s)) ((d - b) * (/ 2 / s))).
Proof.
  intros P S. destruct Rot.
  assert (Exx : (h - f) * (h - f) = (1 + a + e + k) * (1 + a - e - k)) by lra.
  assert (Eyy : (c - g) * (c - g) = (1 + a + e + k) * (1 - a + e - k)) by lra.
  assert (Ezz : (d - b) * (d - b) = (1 + a + e + k) * (1 - a - e + k)) by lra.
  assert (Exy : (h - f) * (c - g) = (1 + a + e + k) * (b + d)) by lra.
  assert (Exz : (h - f) * (d - b) = (1 + a + e + k) * (c + g)) by lra.
  assert (Eyz : (c - g) * (d - b) = (1 + a + e + k) * (f + h)) by lra.
  pose proof (fun x y Kpx Kpy Kxy => pivot_products (s / 2) s _ x y Kpx Kpy Kxy P S eq_refl) as Q.
  unfold outer, A. cbn [nth hw hx hy hz].
  destruct (Q _ _ _ _ _ eq_refl eq_refl Exx) as (? & ? & ? & ?). destruct (Q _ _ _ _ _ eq_refl eq_refl Eyy) as (? & ? & ? & ?).
  destruct (Q _ _ _ _ _ eq_refl eq_refl Ezz) as (? & ? & ? & ?). destruct (Q _ _ _ _ _ eq_refl eq_refl Exy) as (? & ? & ? & ?).
  destruct (Q _ _ _ _ _ eq_refl eq_refl Exz) as (? & ? & ? & ?). destruct (Q _ _ _ _ _ eq_refl eq_refl Eyz) as (? & ? & ? & ?).
  repeat split; assumption.
Qed.
Lemma pivot_x s : 0 < s -> s * s = 1 + a - e - k ->
  outer A (mkH ((h - f) * (/ 2 / s)) (s / 2) ((b + d) * (/ 2 / s)) ((c + g) * (/ 2 / s))).
Proof.
  intros P S. destruct Rot.
  assert (Exx : (h - f) * (h - f) = (1 + a - e - k) * (1 + a + e + k)) by lra.
  assert (Eyy : (b + d) * (b + d) = (1 + a - e - k) * (1 - a + e - k)) by lra.
  assert (Ezz : (c + g) * (c + g) = (1 + a - e - k) * (1 - a - e + k)) by lra.
  assert (Exy : (h - f) * (b + d) = (1 + a - e - k) * (c - g)) by lra.
  assert (Exz : (h - f) * (c + g) = (1 + a - e - k) * (d - b)) by lra.
  assert (Eyz : (b + d) * (c + g) = (1 + a - e - k) * (f + h)) by lra.
  pose proof (fun x y Kpx Kpy Kxy => pivot_products (s / 2) s _ x y Kpx Kpy Kxy P S eq_refl) as Q.
  unfold outer, A. cbn [nth hw hx hy hz].
  destruct (Q _ _ _ _ _ eq_refl eq_refl Exx) as (? & ? & ? & ?). destruct (Q _ _ _ _ _ eq_refl eq_refl Eyy) as (? & ? & ? & ?).
  destruct (Q _ _ _ _ _ eq_refl eq_refl Ezz) as (? & ? & ? & ?). destruct (Q _ _ _ _ _ eq_refl eq_refl Exy) as (? & ? & ? & ?).
  destruct (Q _ _ _ _ _ eq_refl eq_refl Exz) as (? & ? & ? & ?). destruct (Q _ _ _ _ _ eq_refl eq_refl Eyz) as (? & ? & ? & ?).
  repeat split; lra.
Qed.
Lemma pivot_y s : 0 < s -> s * s = 1 - a + e - k ->
  outer A (mkH ((c - g) * (/ 2 / s)) ((b + d) * (/ 2 / s)) (s / 2) ((f + h) * (/ 2 / s))).
Proof.
  intros P S. destruct Rot.
  assert (Exx : (c - g) * (c - g) = (1 - a + e - k) * (1 + a + e + k)) by lra.
  assert (Eyy : (b + d) * (b + d) = (1 - a + e - k) * (1 + a - e - k)) by lra.
  assert (Ezz : (f + h) * (f + h) = (1 - a + e - k) * (1 - a - e + k)) by lra.
  assert (Exy : (c - g) * (b + d) = (1 - a + e - k) * (h - f)) by lra.
  assert (Exz : (c - g) * (f + h) = (1 - a + e - k) * (d - b)) by lra.
  assert (Eyz : (b + d) * (f + h) = (1 - a + e - k) * (c + g)) by lra.
  pose proof (fun x y Kpx Kpy Kxy => pivot_products (s / 2) s _ x y Kpx Kpy Kxy P S eq_refl) as Q.
  unfold outer, A. cbn [nth hw hx hy hz].
  destruct (Q _ _ _ _ _ eq_refl eq_refl Exx) as (? & ? & ? & ?). destruct (Q _ _ _ _ _ eq_refl eq_refl Eyy) as (? & ? & ? & ?).
  destruct (Q _ _ _ _ _ eq_refl eq_refl Ezz) as (? & ? & ? & ?). destruct (Q _ _ _ _ _ eq_refl eq_refl Exy) as (? & ? & ? & ?).
  destruct (Q _ _ _ _ _ eq_refl eq_refl Exz) as (? & ? & ? & ?). destruct (Q _ _ _ _ _ eq_refl eq_refl Eyz) as (? & ? & ? & ?).
  repeat split; lra.
Qed.
Lemma pivot_z s : 0 < s -> s * s = 1 - a - e + k ->
  outer A (mkH ((d - b) * (/ 2 / s)) ((c + g) * (/ 2 / s)) ((f + h) * (/ 2 / s)) (s / 2)).
Proof.
  intros P S. destruct Rot.
  assert (Exx : (d - b) * (d - b) = (1 - a - e + k) * (1 + a + e + k)) by lra.
  assert (Eyy : (c + g) * (c + g) = (1 - a - e + k) * (1 + a - e - k)) by lra.
  assert (Ezz : (f + h) * (f + h) = (1 - a - e + k) * (1 - a + e - k)) by lra.
  assert (Exy : (d - b) * (c + g) = (1 - a - e + k) * (h - f)) by lra.
  assert (Exz : (d - b) * (f + h) = (1 - a - e + k) * (c - g)) by lra.
  assert (Eyz : (c + g) * (f + h) = (1 - a - e + k) * (b + d)) by lra.
  pose proof (fun x y Kpx Kpy Kxy => pivot_products (s / 2) s _ x y Kpx Kpy Kxy P S eq_refl) as Q.
  unfold outer, A. cbn [nth hw hx hy hz].
  destruct (Q _ _ _ _ _ eq_refl eq_refl Exx) as (? & ? & ? & ?). destruct (Q _ _ _ _ _ eq_refl eq_refl Eyy) as (? & ? & ? & ?).
  destruct (Q _ _ _ _ _ eq_refl eq_refl Ezz) as (? & ? & ? & ?). destruct (Q _ _ _ _ _ eq_refl eq_refl Exy) as (? & ? & ? & ?).
  destruct (Q _ _ _ _ _ eq_refl eq_refl Exz) as (? & ? & ? & ?). destruct (Q _ _ _ _ _ eq_refl eq_refl Eyz) as (? & ? & ? & ?).
  repeat split; lra.
Qed.
End Conv.

Definition flip_comp (i : nat) (q : ham) : ham :=
  match i with
  | 0%nat => mkH (hw q) (- hx q) (hy q) (hz q)
  | 1%nat => mkH (hw q) (hx q) (- hy q) (hz q)
  | _ => mkH (hw q) (hx q) (hy q) (- hz q)
  end.
Lemma flip_comp_matrix i q : (i < 3)%nat -> hnorm2 (flip_comp i q) = hnorm2 q /\ meq 3 (ham_matrix (flip_comp i q)) (twisted i (ham_matrix q)).
Proof.
  intros Hi. destruct q as [w x y z]. destruct i as [|[|[|]]]; try lia; cbn [flip_comp hw hx hy hz].
  all: split; [unfold hnorm2; cbn [hw hx hy hz]; ring|].
  all: intros r s Hr Hs; destruct r as [|[|[|]]], s as [|[|[|]]]; try lia; unfold twisted, sign_at, ham_matrix; cbn [nth Nat.eqb hw hx hy hz]; ring.
Qed.
Lemma twisted_ext i A B : meq 3 A B -> meq 3 (twisted i A) (twisted i B).
Proof. intros E r s Hr Hs. unfold twisted. rewrite E; auto. Qed.

Definition arr9 (A : nat -> nat -> R) (i j : nat) : R :=
  nth j (nth i [[A 0%nat 0%nat; A 0%nat 1%nat; A 0%nat 2%nat]; [A 1%nat 0%nat; A 1%nat 1%nat; A 1%nat 2%nat]; [A 2%nat 0%nat; A 2%nat 1%nat; A 2%nat 2%nat]] []) 0.
Lemma arr9_eq A : meq 3 (arr9 A) A.
Proof. intros i j Hi Hj. destruct i as [|[|[|]]], j as [|[|[|]]]; try lia; reflexivity. Qed.

Section Q.
Context (eps : Epsilon).

Definition converts (A : nat -> nat -> R) (q : quat R) : Prop :=
  qdims q /\ unit_quat q /\
  (0 < tr3 A -> meq 3 (ham_matrix (q4 q)) A) /\
  (tr3 A <= 0 -> exists i, (i < 3)%nat /\ (forall j, (j < 3)%nat -> A j j <= A i i) /\ meq 3 (ham_matrix (q4 q)) (twisted i A)).

Lemma of_elems_converts (A : nat -> nat -> R) tr ok age : orthogonal 3 A -> det 3 A = 1 -> tr = tr3 A ->
  exists q, quat_of_elems A tr ok age = Ret q /\ converts A q /\ qvalid q = ok /\ valid (qv q) = ok /\ qage q = age.
Proof.
  intros O D ->. pose proof (rotation3_intro A O D) as Ro. unfold quat_of_elems, nhalf, n0, n1, n2. cbn [nltb nadd nsub nmul ndiv nopp nsqrt nofZ Rnum].
  destruct (Rlt_bool_spec 0 (tr3 A)) as [P|P].
  - eexists. split; [reflexivity|]. cbn [qvalid qv valid qage]. split; [|auto].
    set (s := sqrt (tr3 A + 1)). assert (Sp : 0 < s) by (apply sqrt_lt_R0; lra). assert (S : s * s = 1 + A 0%nat 0%nat + A 1%nat 1%nat + A 2%nat 2%nat) by (unfold s; rewrite sqrt_sqrt; unfold tr3; unfold tr3 in P; lra).
    pose proof (outer_matrix _ _ (pivot_w _ _ _ _ _ _ _ _ _ Ro s Sp S)) as [U M].
    replace (1 / 2 / s) with (/ 2 / s) by (field; lra).
    split; [reflexivity|]. split; [exact U|]. split; [|intros; lra]. intros _. eapply meq_trans; [exact M|]. apply arr9_eq.
  - (* largest diagonal element *)
    assert (Ch : exists i, (i < 3)%nat /\ (forall j, (j < 3)%nat -> A j j <= A i i) /\
       (if Rlt_bool (A (if Rlt_bool (A 0 0)%nat (A 1 1)%nat then 1 else 0) (if Rlt_bool (A 0 0)%nat (A 1 1)%nat then 1 else 0))%nat (A 2 2)%nat then 2 else if Rlt_bool (A 0 0)%nat (A 1 1)%nat then 1 else 0)%nat = i).
    { destruct (Rlt_bool_spec (A 0 0)%nat (A 1 1)%nat) as [L|L];
      [destruct (Rlt_bool_spec (A 1 1)%nat (A 2 2)%nat)|destruct (Rlt_bool_spec (A 0 0)%nat (A 2 2)%nat)];
      eexists; (split; [|split; [|reflexivity]]); try lia; intros j Hj; destruct j as [|[|[|]]]; try lia; lra. }
    destruct Ch as (i & Hi & Mx & ->).
    set (j := match i with 0%nat => 1%nat | 1%nat => 2%nat | _ => 0%nat end).
    set (l := match j with 0%nat => 1%nat | 1%nat => 2%nat | _ => 0%nat end).
    assert (Sq : 0 < 1 + A i i - A j j - A l l).
    { unfold tr3 in P. pose proof (Mx 0%nat ltac:(lia)). pose proof (Mx 1%nat ltac:(lia)). pose proof (Mx 2%nat ltac:(lia)).
      unfold l, j. destruct i as [|[|[|]]]; try lia; lra. }
    set (s := sqrt (1 + A i i - A j j - A l l)). assert (Sp : 0 < s) by (apply sqrt_lt_R0; auto).
    assert (S : s * s = 1 + A i i - A j j - A l l) by (apply sqrt_sqrt; lra).
    unfold oassert. rewrite Rlt_bool_true by exact Sp. eexists. split; [reflexivity|]. cbn [qvalid qv valid qage]. split; [|auto].
    split; [apply dims_tab|].
    replace (1 / 2 / s) with (/ 2 / s) by (field; lra). replace (s * (1 / 2)) with (s / 2) by field.
    assert (X : exists q, outer (arr9 A) q /\
       q4 (mkQ ((A l j - A j l) * (/ 2 / s)) (mkC (tab 3 (fun x => if Nat.eqb x i then - (s / 2) else if Nat.eqb x j then (A i j + A j i) * (/ 2 / s) else (A i l + A l i) * (/ 2 / s))) ok) ok age) = flip_comp i q).
    { clearbody s. unfold l, j in *. clear l j. destruct i as [|[|[|]]]; try lia; cbn [tab map seq Nat.eqb].
      - eexists. split; [apply (pivot_x _ _ _ _ _ _ _ _ _ Ro s Sp); lra|]. unfold q4, co. cbn [qw qv el nth flip_comp hw hx hy hz]. f_equal; ring.
      - eexists. split; [apply (pivot_y _ _ _ _ _ _ _ _ _ Ro s Sp); lra|]. unfold q4, co. cbn [qw qv el nth flip_comp hw hx hy hz]. f_equal; ring.
      - eexists. split; [apply (pivot_z _ _ _ _ _ _ _ _ _ Ro s Sp); lra|]. unfold q4, co. cbn [qw qv el nth flip_comp hw hx hy hz]. f_equal; ring. }
    destruct X as (q & Oq & Eq). destruct (outer_matrix _ _ Oq) as [U M]. destruct (flip_comp_matrix i q Hi) as [F1 F2].
    unfold unit_quat. rewrite Eq. split; [congruence|]. split; [intros; lra|]. intros _. exists i. split; [auto|]. split; [auto|].
    eapply meq_trans; [exact F2|]. apply twisted_ext. eapply meq_trans; [exact M|]. apply arr9_eq.
Qed.

(** ** fromQuaternion *)
Lemma quat_elems_ent q : meq 3 (rc (rot_of_quat_elems q)) (ham_matrix (q4 q)).
Proof.
  intros i j Hi Hj. unfold rot_of_quat_elems, ham_matrix, q4, rc. cbn [hw hx hy hz].
  destruct i as [|[|[|]]], j as [|[|[|]]]; try lia; cbn [nth]; unfold vec_scale; rewrite ?at_tab by lia; toco; ring.
Qed.
Lemma quat_elems_dims q : mdims 3 (rot_of_quat_elems (H := Rnum eps) q).
Proof. split; [reflexivity|]. intros i Hi. destruct i as [|[|[|]]]; try lia; reflexivity. Qed.

Lemma mirror_x_ent m : rot_mirror_axis (H := Rnum eps) 3 0 = Ret m -> meq 3 (ent m) (fun i j => if Nat.eqb i j then (if Nat.eqb i 0 then -1 else 1) else 0) /\ mflip m = true /\ mvalid m = true.
Proof.
  intros X. unfold rot_mirror_axis in X. cbn [Nat.ltb Nat.leb] in X. injection X as <-. split; [|auto]. intros i j Hi Hj.
  unfold ent. cbn [me]. rewrite rc_mtab by auto. unfold kron, n0, n1. cbn [nopp nofZ Rnum].
  destruct i as [|[|[|]]], j as [|[|[|]]]; try lia; cbn [Nat.eqb andb]; lra.
Qed.
Lemma mirror_x_orth m : rot_mirror_axis (H := Rnum eps) 3 0 = Ret m -> valid_orth 3 m.
Proof.
  intros X _. destruct (mirror_x_ent m X) as (E & _). apply (orthogonal_ext 3 _ _ (meq_sym 3 _ _ E)). intros i j Hi Hj. unfold mmul, mtr, delta. cbn [Rsum].
  destruct i as [|[|[|]]], j as [|[|[|]]]; try lia; cbn [Nat.eqb]; ring.
Qed.
Lemma mul_mirror_x A B : meq 3 B (fun i j => if Nat.eqb i j then (if Nat.eqb i 0 then -1 else 1) else 0) -> meq 3 (mmul 3 A B) (flip_x A).
Proof.
  intros E i j Hi Hj. unfold mmul, flip_x. cbn [Rsum]. rewrite !E by lia. destruct j as [|[|[|]]]; try lia; cbn [Nat.eqb]; ring.
Qed.
Lemma flip_x_ext A B : meq 3 A B -> meq 3 (flip_x A) (flip_x B).
Proof. intros E i j Hi Hj. unfold flip_x. rewrite E; auto. Qed.
Lemma flip_x_flip_x A : meq 3 (flip_x (flip_x A)) A.
Proof. intros i j Hi Hj. unfold flip_x. destruct (Nat.eqb j 0); ring. Qed.
Lemma flip_x_orth A : orthogonal 3 A -> orthogonal 3 (flip_x A).
Proof.
  intros O i j Hi Hj. rewrite <- (O i j Hi Hj). unfold mmul, mtr, flip_x. cbn [Rsum Nat.eqb]. ring.
Qed.
Lemma flip_x_det A : det 3 (flip_x A) = - det 3 A.
Proof. unfold det, det3, flip_x. cbn [Nat.eqb]. ring. Qed.

Lemma from_quat_spec old q nf m : unit_quat q -> rot_from_quat old q nf = Ret m ->
  meq 3 (ent m) (if nf then ham_matrix (q4 q) else flip_x (ham_matrix (q4 q))) /\ mvalid m = true /\ mflip m = false /\ mdims 3 (me m).
Proof.
  intros U. unfold rot_from_quat. destruct nf; cbn [negb obind].
  - intros X. injection X as <-. cbn [mvalid mflip me]. split; [apply quat_elems_ent|]. split; [auto|]. split; [auto|]. apply quat_elems_dims.
  - set (m0 := mkM _ _ _ _). destruct (rot_mirror_axis 3 0) as [mx| | |] eqn:X; try discriminate. cbn [obind]. pose proof (mirror_x_ent mx X) as (E & F & V).
    destruct (prod 3 m0 mx) as [m1| | |] eqn:Pr; try discriminate. cbn [obind]. intros Y. injection Y as <-.
    destruct (prod_spec eps 3 m0 mx m1) as (P1 & P2 & P3 & P4); auto.
    + intros _. apply (orthogonal_ext 3 (ham_matrix (q4 q))); [|apply ham_matrix_orth; auto]. apply meq_sym, quat_elems_ent.
    + apply mirror_x_orth; auto.
    + cbn [mvalid mflip me]. rewrite P3, F. split; [|auto].
      eapply meq_trans; [exact P2|]. eapply meq_trans; [apply mul_mirror_x; exact E|]. apply flip_x_ext, quat_elems_ent.
Qed.
End Q.
