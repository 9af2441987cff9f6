(** The determinant routine gives the sign of the determinant of a 3 by 3 matrix that is orthogonal within 1/100 (C29). *)
From Coq Require Import ZArith Reals List Lra Lia Psatz Bool.
From Flocq Require Import Core.Raux Core.Zaux.
From Verif Require Import Base Scalar ConstModel VecModel RotModel RSpec RLib VecSpec VecProofs VecProofs2 VecProofs4 RotSpec MatLib RotProofs RotProofs2 RotProofs3 RotProofs4 RotProofs5 RotProofs6.
Import ListNotations.
Open Scope R_scope.

Lemma abs_le_sqr x b : 0 <= b -> x * x <= b * b -> - b <= x <= b.
Proof. intros. split; nra. Qed.
Lemma lagrange a1 a2 a3 b1 b2 b3 : (a1 * b2 - a2 * b1) * (a1 * b2 - a2 * b1) <= (a1 * a1 + a2 * a2 + a3 * a3) * (b1 * b1 + b2 * b2 + b3 * b3).
Proof.
  assert (E : (a1 * a1 + a2 * a2 + a3 * a3) * (b1 * b1 + b2 * b2 + b3 * b3) = (a1 * b1 + a2 * b2 + a3 * b3) * (a1 * b1 + a2 * b2 + a3 * b3) + (a1 * b2 - a2 * b1) * (a1 * b2 - a2 * b1) + (a1 * b3 - a3 * b1) * (a1 * b3 - a3 * b1) + (a2 * b3 - a3 * b2) * (a2 * b3 - a3 * b2)) by ring.
  rewrite E. pose proof (Rle_0_sqr (a1 * b1 + a2 * b2 + a3 * b3)). pose proof (Rle_0_sqr (a1 * b3 - a3 * b1)). pose proof (Rle_0_sqr (a2 * b3 - a3 * b2)). unfold Rsqr in *. lra.
Qed.

Lemma sqr0 x : 0 <= x * x.
Proof. nra. Qed.
Lemma minor a1 a2 a3 b1 b2 b3 : a1 * a1 + a2 * a2 + a3 * a3 <= 101 / 100 -> b1 * b1 + b2 * b2 + b3 * b3 <= 101 / 100 -> (a1 * b2 - a2 * b1) * (a1 * b2 - a2 * b1) <= 1021 / 1000.
Proof.
  intros A B. pose proof (lagrange a1 a2 a3 b1 b2 b3) as L. pose proof (sqr0 a1). pose proof (sqr0 a2). pose proof (sqr0 a3). pose proof (sqr0 b1). pose proof (sqr0 b2). pose proof (sqr0 b3). assert (PA : 0 <= a1 * a1 + a2 * a2 + a3 * a3) by lra. assert (PB : 0 <= b1 * b1 + b2 * b2 + b3 * b3) by lra. pose proof (Rmult_le_compat _ _ _ _ PA PB A B). lra.
Qed.
Lemma prodb x y u v : - u <= x <= u -> - v <= y <= v -> - (u * v) <= x * y <= u * v.
Proof. intros [] []; split; nra. Qed.
Lemma sqrb x u : - u <= x <= u -> x * x <= u * u.
Proof. intros []. nra. Qed.
Lemma sqprod x y u v : x * x <= u -> y * y <= v -> (x * y) * (x * y) <= u * v.
Proof. intros A B. replace (x * y * (x * y)) with ((x * x) * (y * y)) by ring. apply Rmult_le_compat; auto using sqr0. Qed.
Lemma amgm s r : 0 <= s -> 0 <= r -> s + r <= 206 / 100 -> s * r <= 107 / 100.
Proof. intros A B C. pose proof (sqr0 (s - r)). assert ((s + r) * (s + r) <= 206 / 100 * (206 / 100)) by (apply Rmult_le_compat; lra). lra. Qed.

Section Real.
Variable t : R.
Hypothesis Ht : 0 < t <= / 1000000000000.

(** the second column *)
Lemma second_col a q01 q11 q12 q21 q22 mv D V W :
  2 * t <= a * a -> q01 * q01 <= 9 -> 0 < mv -> mv <= (q01 * q01 + q11 * q11 + q21 * q21 + 2) * t ->
  D = a * (q11 * q22 - q12 * q21) -> V = a * q21 -> W = a * q22 -> (a * q12) * (a * q12) <= 25 -> W * W <= 25 -> 9 / 10 <= Rabs D ->
  (q11 * q11 < mv -> mv <= q21 * q21 -> (q11 * W) * (q11 * W) <= 64 / 100) ->
  forall out, (mv <= q11 * q11 -> out = D) -> (q11 * q11 < mv -> mv <= q21 * q21 -> out = - (a * q21 * q12)) ->
  (q11 * q11 < mv -> q21 * q21 < mv -> out = 0) -> Rlt_bool out 0 = Rlt_bool D 0.
Proof.
  intros Ha H01 Pm Hm ED EV EW H12 HW HD Hc out O1 O2 O3. destruct (Rle_or_lt mv (q11 * q11)) as [L1|L1]; [rewrite (O1 L1); reflexivity|]. destruct (Rle_or_lt mv (q21 * q21)) as [L2|L2].
  - specialize (Hc L1 L2). rewrite (O2 L1 L2). assert (B : - (8 / 10) <= q11 * W <= 8 / 10) by (apply abs_le_sqr; lra). assert (E : - (a * q21 * q12) = D - q11 * W) by (rewrite ED, EW; ring). rewrite E.
    unfold Rabs in HD. destruct (Rcase_abs D); destruct (Rlt_bool_spec (D - q11 * W) 0); destruct (Rlt_bool_spec D 0); auto; lra.
  - exfalso. assert (S : q11 * q11 + q21 * q21 <= 23 * t). { set (s := q11 * q11 + q21 * q21) in *. assert (s <= 2 * ((q01 * q01 + s + 2) * t)) by (unfold s; nra). assert (0 <= s) by (unfold s; nra). assert (s * t <= s * / 1000000000000) by (apply Rmult_le_compat_l; lra). nra. }
    assert (B1 : - / 100000 <= q11 <= / 100000) by (apply abs_le_sqr; [lra|]; nra). assert (B2 : - / 100000 <= q21 <= / 100000) by (apply abs_le_sqr; [lra|]; nra).
    assert (B3 : - (5) <= W <= 5) by (apply abs_le_sqr; lra). assert (B4 : - (5) <= a * q12 <= 5) by (apply abs_le_sqr; lra). assert (E : D = q11 * W - (a * q12) * q21) by (rewrite ED, EW; ring).
    assert (X1 : - / 20000 <= q11 * W <= / 20000) by (split; nra). assert (X2 : - / 20000 <= a * q12 * q21 <= / 20000) by (split; nra). unfold Rabs in HD. destruct (Rcase_abs D); lra.
Qed.
(** how large the element that the routine loses can be *)
Lemma lost a q01 q11 q21 mv V c : 0 < c -> c * t <= a * a -> q01 * q01 <= 9 -> mv <= (q01 * q01 + q11 * q11 + q21 * q21 + 2) * t -> V = a * q21 -> q11 * q11 < mv ->
  q11 * q11 * (999 / 1000) <= V * V / c + 11 * t.
Proof.
  intros Hc Ha H01 Hm EV L. assert (Pa : 0 < a * a) by nra. assert (E : q21 * q21 * t <= V * V / c).
  { rewrite EV. apply Rmult_le_reg_r with c; auto. replace (a * q21 * (a * q21) / c * c) with (a * a * (q21 * q21)) by (field; lra). assert (0 <= q21 * q21) by nra. nra. }
  assert (0 <= q11 * q11) by apply sqr0. assert (q11 * q11 * t <= q11 * q11 * / 1000000000000) by (apply Rmult_le_compat_l; lra). nra.
Qed.

Variables a b c d e f g h i : R.
Hypothesis R0 : 99 / 100 <= a * a + b * b + c * c <= 101 / 100.
Hypothesis R1 : 99 / 100 <= d * d + e * e + f * f <= 101 / 100.
Hypothesis R2 : 99 / 100 <= g * g + h * h + i * i <= 101 / 100.
Hypothesis R01 : - (1 / 100) <= a * d + b * e + c * f <= 1 / 100.
Hypothesis R02 : - (1 / 100) <= a * g + b * h + c * i <= 1 / 100.
Hypothesis R12 : - (1 / 100) <= d * g + e * h + f * i <= 1 / 100.
Definition DM : R := a * (e * i - f * h) - b * (d * i - f * g) + c * (d * h - e * g).
Lemma DM_big : 96 / 100 <= Rabs DM.
Proof.
  set (g00 := a * a + b * b + c * c) in *. set (g11 := d * d + e * e + f * f) in *. set (g22 := g * g + h * h + i * i) in *. set (g01 := a * d + b * e + c * f) in *. set (g02 := a * g + b * h + c * i) in *. set (g12 := d * g + e * h + f * i) in *.
  assert (E : DM * DM = g00 * (g11 * g22 - g12 * g12) - g01 * (g01 * g22 - g12 * g02) + g02 * (g01 * g12 - g11 * g02)) by (unfold DM, g00, g11, g22, g01, g02, g12; ring).
  clearbody g00 g11 g22 g01 g02 g12. assert (A1 : 980 / 1000 <= g11 * g22) by nra. assert (A2 : g12 * g12 <= / 1000) by nra. assert (A3 : 968 / 1000 <= g00 * (g11 * g22 - g12 * g12)) by nra.
  assert (A4 : - (12 / 1000) <= g01 * g22 - g12 * g02 <= 12 / 1000) by (split; nra). assert (A5 : - (12 / 1000) <= g01 * g12 - g11 * g02 <= 12 / 1000) by (split; nra). assert (A6 : - (1 / 1000) <= g01 * (g01 * g22 - g12 * g02) <= 1 / 1000) by (split; nra). assert (A7 : - (1 / 1000) <= g02 * (g01 * g12 - g11 * g02) <= 1 / 1000) by (split; nra).
  assert (X : 96 / 100 * (96 / 100) <= DM * DM) by lra. unfold Rabs. destruct (Rcase_abs DM); nra.
Qed.
Lemma entries : (a * a <= 101 / 100 /\ b * b <= 101 / 100 /\ c * c <= 101 / 100) /\ (d * d <= 101 / 100 /\ e * e <= 101 / 100 /\ f * f <= 101 / 100) /\ (g * g <= 101 / 100 /\ h * h <= 101 / 100 /\ i * i <= 101 / 100).
Proof. repeat split; nra. Qed.

(** the second column when the first row was kept *)
Lemma keep_case mv out : 2 * t <= a * a -> let q01 := b in let q11 := e - b * (d / a) in let q12 := f - c * (d / a) in let q21 := h - b * (g / a) in let q22 := i - c * (g / a) in
  0 < mv -> mv <= (q01 * q01 + q11 * q11 + q21 * q21 + 2) * t ->
  (mv <= q11 * q11 -> out = a * (q11 * q22 - q12 * q21)) -> (q11 * q11 < mv -> mv <= q21 * q21 -> out = - (a * q21 * q12)) ->
  (q11 * q11 < mv -> q21 * q21 < mv -> out = 0) -> Rlt_bool out 0 = Rlt_bool DM 0.
Proof.
  intros Ha q01 q11 q12 q21 q22 Pm Hm O1 O2 O3. assert (Na : a <> 0) by (intros Z; rewrite Z in Ha; lra).
  assert (EV : a * h - b * g = a * q21) by (unfold q21; field; auto). assert (EW : a * i - c * g = a * q22) by (unfold q22; field; auto). assert (EX : a * f - c * d = a * q12) by (unfold q12; field; auto).
  assert (ED : DM = a * (q11 * q22 - q12 * q21)) by (unfold DM, q11, q22, q12, q21; field; auto).
  pose proof entries as ((A1 & A2 & A3) & (A4 & A5 & A6) & (A7 & A8 & A9)). pose proof DM_big as DB.
  assert (BV : (a * h - b * g) * (a * h - b * g) <= 1021 / 1000) by (apply (minor a b c g h i); lra).
  assert (BW : (a * i - c * g) * (a * i - c * g) <= 1021 / 1000) by (apply (minor a c b g i h); lra).
  assert (BX : (a * f - c * d) * (a * f - c * d) <= 1021 / 1000) by (apply (minor a c b d f e); lra).
  refine (second_col a q01 q11 q12 q21 q22 mv DM (a * h - b * g) (a * i - c * g) Ha _ Pm Hm ED EV EW _ _ _ _ out _ O2 O3); try (unfold q01; lra).
  - rewrite <- EX. lra.
  - intros L1 L2. pose proof (lost a q01 q11 q21 mv (a * h - b * g) 2 ltac:(lra) Ha ltac:(unfold q01; lra) Hm EV L1) as LO.
    set (V := (a * h - b * g) * (a * h - b * g)) in *. set (W := a * i - c * g) in *. replace (q11 * W * (q11 * W)) with (q11 * q11 * (W * W)) by ring. assert (0 <= W * W) by apply sqr0. assert (B : q11 * q11 <= 52 / 100) by lra. pose proof (Rmult_le_compat _ _ _ _ (sqr0 q11) (sqr0 W) B BW). lra.
Qed.

(** the second column when the first row was changed by row 1 *)
Lemma add1_case mv out : a * a <= 8 * t -> 2 * t <= d * d -> let q01 := b + e in let q11 := e - (b + e) * (d / d) in let q12 := f - (c + f) * (d / d) in let q21 := h - (b + e) * (g / d) in let q22 := i - (c + f) * (g / d) in
  0 < mv -> mv <= (q01 * q01 + q11 * q11 + q21 * q21 + 2) * t ->
  (mv <= q11 * q11 -> out = d * (q11 * q22 - q12 * q21)) -> (q11 * q11 < mv -> mv <= q21 * q21 -> out = - (d * q21 * q12)) ->
  (q11 * q11 < mv -> q21 * q21 < mv -> out = 0) -> Rlt_bool out 0 = Rlt_bool DM 0.
Proof.
  intros Sa Ha q01 q11 q12 q21 q22 Pm Hm O1 O2 O3. assert (Na : d <> 0) by (intros Z; rewrite Z in Ha; lra).
  assert (E11 : q11 = - b) by (unfold q11; field; auto). assert (E12 : q12 = - c) by (unfold q12; field; auto).
  set (V := d * h - (b + e) * g) in *. set (W := d * i - (c + f) * g) in *.
  assert (EV : V = d * q21) by (unfold V, q21; field; auto). assert (EW : W = d * q22) by (unfold W, q22; field; auto).
  set (D := d * (q11 * q22 - q12 * q21)) in *.
  assert (ED : D = DM - a * (e * i - f * h)) by (unfold D; rewrite E11, E12; unfold DM, q22, q21; field; auto).
  pose proof entries as ((A1 & A2 & A3) & (A4 & A5 & A6) & (A7 & A8 & A9)). pose proof DM_big as DB.
  assert (Ba : - / 100000 <= a <= / 100000) by (apply abs_le_sqr; [lra|]; lra).
  assert (BM : (e * i - f * h) * (e * i - f * h) <= 1021 / 1000) by (apply (minor e f d h i g); lra).
  assert (BM' : - (2) <= e * i - f * h <= 2) by (apply abs_le_sqr; lra).
  assert (BA : - / 10000 <= a * (e * i - f * h) <= / 10000) by (pose proof (prodb a (e * i - f * h) _ _ Ba BM'); lra).
  assert (SD : Rlt_bool D 0 = Rlt_bool DM 0) by (rewrite ED; unfold Rabs in DB; destruct (Rcase_abs DM); destruct (Rlt_bool_spec (DM - a * (e * i - f * h)) 0); destruct (Rlt_bool_spec DM 0); auto; lra).
  assert (BD : 9 / 10 <= Rabs D) by (rewrite ED; unfold Rabs in *; destruct (Rcase_abs DM); destruct (Rcase_abs (DM - a * (e * i - f * h))); lra).
  assert (X : forall x, x * x <= 101 / 100 -> - (101 / 100) <= x <= 101 / 100) by (intros x Hx; apply abs_le_sqr; lra).
  pose proof (X b A2) as Xb. pose proof (X c A3) as Xc. pose proof (X d A4) as Xd. pose proof (X e A5) as Xe. pose proof (X f A6) as Xf. pose proof (X g A7) as Xg. pose proof (X h A8) as Xh. pose proof (X i A9) as Xi.
  assert (BV : - (4) <= V <= 4). { pose proof (prodb d h _ _ Xd Xh). pose proof (prodb (b + e) g (202 / 100) (101 / 100) ltac:(lra) Xg). unfold V. lra. }
  assert (BW : - (4) <= W <= 4). { pose proof (prodb d i _ _ Xd Xi). pose proof (prodb (c + f) g (202 / 100) (101 / 100) ltac:(lra) Xg). unfold W. lra. }
  assert (B01 : q01 * q01 <= 9) by (unfold q01; replace 9 with (3 * 3) by lra; apply sqrb; lra). assert (BWW : W * W <= 16) by (pose proof (sqrb _ _ BW); lra). assert (BVV : V * V <= 16) by (pose proof (sqrb _ _ BV); lra).
  rewrite <- SD.
  refine (second_col d q01 q11 q12 q21 q22 mv D V W Ha B01 Pm Hm eq_refl EV EW _ _ BD _ out O1 O2 O3); [|lra|].
  - rewrite E12. pose proof (sqprod d (- c) (101 / 100) (101 / 100) A4 ltac:(lra)). lra.
  - intros L1 L2. assert (L1' := L1). rewrite E11 in L1'. replace (- b * - b) with (b * b) in L1' by ring. replace (q11 * W * (q11 * W)) with (b * b * (W * W)) by (rewrite E11; ring). assert (PW : 0 <= W * W) by apply sqr0. assert (PV : 0 <= V * V) by apply sqr0.
    destruct (Rle_or_lt (2000 * t) (d * d)) as [Big|Sm].
    + pose proof (lost d q01 q11 q21 mv V 2000 ltac:(lra) Big B01 Hm EV L1) as LO. rewrite E11 in LO. replace (- b * - b) with (b * b) in LO by ring. assert (BB : b * b <= 9 / 1000) by lra. pose proof (Rmult_le_compat _ _ _ _ (sqr0 b) (sqr0 W) BB BWW). lra.
    + pose proof (lost d q01 q11 q21 mv V 2 ltac:(lra) Ha B01 Hm EV L1) as LO. rewrite E11 in LO. replace (- b * - b) with (b * b) in LO by ring.
      assert (Bd : - (5 / 100000) <= d <= 5 / 100000) by (apply abs_le_sqr; [lra|]; lra).
      set (x := b + e) in *. set (y := c + f) in *.
      assert (XY : x * x + y * y <= 206 / 100). { assert (S : x * x + y * y = (a * a + b * b + c * c) + (d * d + e * e + f * f) + 2 * (a * d + b * e + c * f) - a * a - d * d - 2 * (a * d)) by (unfold x, y; ring). pose proof (prodb a d _ _ Ba Bd). pose proof (sqr0 a). pose proof (sqr0 d). lra. }
      assert (Q : forall u v w, - (101 / 100) <= u <= 101 / 100 -> w = d * u - v * g -> v * v <= 5 -> w * w <= 102 / 100 * (v * v) + / 1000).
      { intros u v w Hu Ew Hv. assert (T1 : - (6 / 100000) <= d * u <= 6 / 100000) by (pose proof (prodb d u _ _ Bd Hu); lra). assert (T2 : (v * g) * (v * g) <= 101 / 100 * (v * v)) by (pose proof (sqprod v g (v * v) (101 / 100) ltac:(lra) A7); lra).
        assert (T3 : - (3) <= v * g <= 3) by (apply abs_le_sqr; lra). rewrite Ew. pose proof (prodb _ _ _ _ T1 T3). pose proof (sqrb _ _ T1). pose proof (sqr0 v). lra. }
      assert (Y0 : 0 <= y * y) by apply sqr0. assert (X0 : 0 <= x * x) by apply sqr0.
      pose proof (Q h x V Xh eq_refl ltac:(lra)) as QV. pose proof (Q i y W Xi eq_refl ltac:(lra)) as QW.
      assert (Bb : b * b <= 512 / 1000 * (x * x) + / 1000) by lra. set (s := x * x) in *. set (r := y * y) in *. assert (PR : s * r <= 107 / 100) by (apply amgm; lra).
      assert (U1 : b * b * (W * W) <= (512 / 1000 * s + / 1000) * (102 / 100 * r + / 1000)) by (apply Rmult_le_compat; auto using sqr0; lra). lra.
Qed.

(** the second column when the first row was changed by row 2 *)
Lemma add2_case mv out : a * a <= 8 * t -> d * d <= 8 * t -> 2 * t <= g * g -> let q01 := b + h in let q11 := e - (b + h) * (d / g) in let q12 := f - (c + i) * (d / g) in let q21 := h - (b + h) * (g / g) in let q22 := i - (c + i) * (g / g) in
  0 < mv -> mv <= (q01 * q01 + q11 * q11 + q21 * q21 + 2) * t ->
  (mv <= q11 * q11 -> out = g * (q11 * q22 - q12 * q21)) -> (q11 * q11 < mv -> mv <= q21 * q21 -> out = - (g * q21 * q12)) ->
  (q11 * q11 < mv -> q21 * q21 < mv -> out = 0) -> Rlt_bool out 0 = Rlt_bool DM 0.
Proof.
  intros Sa Sd Ha q01 q11 q12 q21 q22 Pm Hm O1 O2 O3. assert (Na : g <> 0) by (intros Z; rewrite Z in Ha; lra).
  assert (E21 : q21 = - b) by (unfold q21; field; auto). assert (E22 : q22 = - c) by (unfold q22; field; auto).
  set (V := g * q21) in *. set (W := g * q22) in *.
  set (D := g * (q11 * q22 - q12 * q21)) in *.
  assert (ED : D = DM - a * (e * i - f * h)) by (unfold D; rewrite E21, E22; unfold DM, q11, q12; field; auto).
  pose proof entries as ((A1 & A2 & A3) & (A4 & A5 & A6) & (A7 & A8 & A9)). pose proof DM_big as DB.
  assert (Ba : - / 100000 <= a <= / 100000) by (apply abs_le_sqr; [lra|]; lra).
  assert (Bd : - / 100000 <= d <= / 100000) by (apply abs_le_sqr; [lra|]; lra).
  assert (BM : (e * i - f * h) * (e * i - f * h) <= 1021 / 1000) by (apply (minor e f d h i g); lra).
  assert (BM' : - (2) <= e * i - f * h <= 2) by (apply abs_le_sqr; lra).
  assert (BA : - / 10000 <= a * (e * i - f * h) <= / 10000) by (pose proof (prodb a (e * i - f * h) _ _ Ba BM'); lra).
  assert (SD : Rlt_bool D 0 = Rlt_bool DM 0) by (rewrite ED; unfold Rabs in DB; destruct (Rcase_abs DM); destruct (Rlt_bool_spec (DM - a * (e * i - f * h)) 0); destruct (Rlt_bool_spec DM 0); auto; lra).
  assert (BD : 9 / 10 <= Rabs D) by (rewrite ED; unfold Rabs in *; destruct (Rcase_abs DM); destruct (Rcase_abs (DM - a * (e * i - f * h))); lra).
  assert (X : forall x, x * x <= 101 / 100 -> - (101 / 100) <= x <= 101 / 100) by (intros x Hx; apply abs_le_sqr; lra).
  pose proof (X b A2) as Xb. pose proof (X c A3) as Xc. pose proof (X e A5) as Xe. pose proof (X f A6) as Xf. pose proof (X g A7) as Xg. pose proof (X h A8) as Xh. pose proof (X i A9) as Xi.
  assert (B01 : q01 * q01 <= 9) by (unfold q01; replace 9 with (3 * 3) by lra; apply sqrb; lra).
  assert (BWW : W * W <= 2) by (unfold W; rewrite E22; pose proof (sqprod g (- c) (101 / 100) (101 / 100) A7 ltac:(lra)); lra).
  assert (BVV : V * V <= 2) by (unfold V; rewrite E21; pose proof (sqprod g (- b) (101 / 100) (101 / 100) A7 ltac:(lra)); lra).
  assert (Gb : 88 / 100 <= g * g).
  { (* the first column would be null *)
    set (k1 := e * i - f * h) in *. set (k2 := b * i - c * h). set (k3 := b * f - c * e). assert (ED2 : DM = a * k1 - d * k2 + g * k3) by (unfold DM, k1, k2, k3; ring).
    assert (B2 : k2 * k2 <= 1021 / 1000) by (unfold k2; apply (minor b c a h i g); lra). assert (B3 : k3 * k3 <= 1021 / 1000) by (unfold k3; apply (minor b c a e f d); lra).
    assert (B2' : - (2) <= k2 <= 2) by (apply abs_le_sqr; lra). assert (BD2 : - / 10000 <= d * k2 <= / 10000) by (pose proof (prodb d k2 _ _ Bd B2'); lra).
    assert (G3 : 95 / 100 * (95 / 100) <= (g * k3) * (g * k3)) by (destruct (Rle_or_lt 0 (g * k3)); unfold Rabs in DB; destruct (Rcase_abs DM); [lra|apply Rmult_le_compat; lra|replace (g * k3 * (g * k3)) with ((- (g * k3)) * (- (g * k3))) by ring; apply Rmult_le_compat; lra|lra]). replace (g * k3 * (g * k3)) with (g * g * (k3 * k3)) in G3 by ring. assert (0 <= g * g) by apply sqr0. assert (0 <= k3 * k3) by apply sqr0.
    assert (G4 : g * g * (k3 * k3) <= g * g * (1021 / 1000)) by (apply Rmult_le_compat_l; lra). lra. }
  rewrite <- SD.
  refine (second_col g q01 q11 q12 q21 q22 mv D V W Ha B01 Pm Hm eq_refl eq_refl eq_refl _ _ BD _ out O1 O2 O3); [|lra|].
  - assert (E12 : g * q12 = g * f - (c + i) * d) by (unfold q12; field; auto). rewrite E12. pose proof (prodb g f _ _ Xg Xf). pose proof (prodb (c + i) d (202 / 100) _ ltac:(lra) Bd). replace 25 with (5 * 5) by lra. apply sqrb. lra.
  - intros L1 L2. pose proof (lost g q01 q11 q21 mv V 10000 ltac:(lra) ltac:(lra) B01 Hm eq_refl L1) as LO. replace (q11 * W * (q11 * W)) with (q11 * q11 * (W * W)) by ring. assert (0 <= W * W) by apply sqr0. assert (0 <= q11 * q11) by apply sqr0. assert (BQ : q11 * q11 <= / 1000) by lra. pose proof (Rmult_le_compat _ _ _ _ (sqr0 q11) (sqr0 W) BQ BWW). lra.
Qed.

Lemma null_col : a * a <= 8 * t -> d * d <= 8 * t -> g * g <= 8 * t -> False.
Proof.
  intros Sa Sd Sg. pose proof DM_big as DB.
  assert (X : forall x, x * x <= 8 * t -> - / 100000 <= x <= / 100000) by (intros x Hx; apply abs_le_sqr; lra).
  assert (Y : forall x, x * x <= 1021 / 1000 -> - (2) <= x <= 2) by (intros x Hx; apply abs_le_sqr; lra).
  assert (B1 := Y _ (minor e f d h i g ltac:(lra) ltac:(lra))). assert (B2 := Y _ (minor b c a h i g ltac:(lra) ltac:(lra))). assert (B3 := Y _ (minor b c a e f d ltac:(lra) ltac:(lra))).
  pose proof (prodb _ _ _ _ (X _ Sa) B1). pose proof (prodb _ _ _ _ (X _ Sd) B2). pose proof (prodb _ _ _ _ (X _ Sg) B3).
  assert (E : DM = a * (e * i - f * h) - d * (b * i - c * h) + g * (b * f - c * e)) by (unfold DM; ring). unfold Rabs in DB. destruct (Rcase_abs DM); lra.
Qed.
End Real.

Section M.
Context (eps : Epsilon).
(** one elimination, as it is written and with the zero factor not singled out *)
Lemma step_keep v i : ~ rc v i i * rc v i i < minval 3 v i -> exists w, det_step 3 v i = Some w /\
  forall r c, (r < 3)%nat -> (c < 3)%nat -> rc w r c = if Nat.ltb i r then (if Nat.eqb c i then 0 else if Nat.ltb i c then rc v r c - rc v i c * (rc v r i / rc v i i) else rc v r c) else rc v r c.
Proof.
  intros L. unfold det_step. tom. rewrite Rlt_bool_false by lra. eexists. split; [reflexivity|]. intros r c Hr Hc. rewrite rc_mtab by lia. tom.
  destruct (Nat.ltb i r); auto. destruct (Nat.eqb c i); auto. destruct (Nat.ltb i c); cbn [andb]; auto. destruct (Req_bool_spec (rc v r i / rc v i i) 0) as [Z|Z]; cbn [negb]; auto. rewrite Z. ring.
Qed.
Definition padd (v : mat R) (i j r c : nat) : R := if Nat.eqb r i then (if Nat.eqb c i then rc v j c else if Nat.ltb i c then rc v r c + rc v j c else rc v r c) else rc v r c.
Lemma step_add v i j : rc v i i * rc v i i < minval 3 v i -> find_row 3 v i (minval 3 v i) = Some j -> (i < 3)%nat -> (i < j < 3)%nat -> exists w, det_step 3 v i = Some w /\
  forall r c, (r < 3)%nat -> (c < 3)%nat -> rc w r c = if Nat.ltb i r then (if Nat.eqb c i then 0 else if Nat.ltb i c then padd v i j r c - padd v i j i c * (padd v i j r i / padd v i j i i) else padd v i j r c) else padd v i j r c.
Proof.
  intros L F Hi Hj. unfold det_step. tom. rewrite Rlt_bool_true by lra. rewrite F. eexists. split; [reflexivity|]. intros r c Hr Hc. set (p := padd v i j). rewrite rc_mtab by lia. tom.
  assert (A : forall r c, (r < 3)%nat -> (c < 3)%nat -> rc (det_add_row 3 v i j) r c = p r c) by (intros; unfold det_add_row; rewrite rc_mtab by lia; reflexivity). rewrite !A by lia.
  destruct (Nat.ltb i r); auto. destruct (Nat.eqb c i); auto. destruct (Nat.ltb i c); cbn [andb]; auto. destruct (Req_bool_spec (p r i / p i i) 0) as [Z|Z]; cbn [negb]; auto. rewrite Z. ring.
Qed.
Lemma step_none v i : rc v i i * rc v i i < minval 3 v i -> find_row 3 v i (minval 3 v i) = None -> det_step 3 v i = None.
Proof. intros L F. unfold det_step. tom. rewrite Rlt_bool_true by lra. rewrite F. reflexivity. Qed.

Definition tail_det (w : mat R) : R := match det_step 3 w 1 with None => 0 | Some m => rc m 0 0 * rc m 1 1 * rc m 2 2 end.
Lemma det_unfold v : matrix_det 3 v = match det_step 3 v 0 with None => 0 | Some w => tail_det w end.
Proof.
  unfold matrix_det, tail_det. cbn [Nat.sub seq fold_left]. destruct (det_step 3 v 0) as [w|]; [|reflexivity]. destruct (det_step 3 w 1) as [u|]; [|reflexivity]. tom. ring.
Qed.
Lemma mv_le m i : minval 3 m i <= (Rsum 3 (fun j => rc m j i * rc m j i) + 2) * bpow radix2 (-1023).
Proof.
  pose proof small1023. pose proof TINY_eq. pose proof (sqr0 (rc m 0 i)). pose proof (sqr0 (rc m 1 i)). pose proof (sqr0 (rc m 2 i)). apply minval_le with (Rsum 3 (fun j => rc m j i * rc m j i)); [lra| |]; cbn [Rsum].
  - apply Rmult_le_compat_r; lra.
  - assert (0 <= (0 + rc m 0 i * rc m 0 i + rc m 1 i * rc m 1 i + rc m 2 i * rc m 2 i) * bpow radix2 (-1023)) by (apply Rmult_le_pos; lra). lra.
Qed.
Lemma mv_ge n m i : 2 * bpow radix2 (-1023) <= minval n m i.
Proof. rewrite minval_def. rewrite <- TINY_eq. apply Rmax_r. Qed.
Lemma tail_cases w : let mv := minval 3 w 1 in let q r c := rc w r c in
  (mv <= q 1%nat 1%nat * q 1%nat 1%nat -> tail_det w = q 0%nat 0%nat * (q 1%nat 1%nat * q 2%nat 2%nat - q 1%nat 2%nat * q 2%nat 1%nat)) /\
  (q 1%nat 1%nat * q 1%nat 1%nat < mv -> mv <= q 2%nat 1%nat * q 2%nat 1%nat -> tail_det w = - (q 0%nat 0%nat * q 2%nat 1%nat * q 1%nat 2%nat)) /\
  (q 1%nat 1%nat * q 1%nat 1%nat < mv -> q 2%nat 1%nat * q 2%nat 1%nat < mv -> tail_det w = 0).
Proof.
  intros mv q. pose proof (mv_ge 3 w 1) as G. fold mv in G. pose proof small1023 as SM. split; [|split].
  - intros L. destruct (step_keep w 1) as (u & E & C); [fold mv; unfold q in L; lra|]. unfold tail_det. rewrite E, !C by lia. unfold padd. cbn [Nat.ltb Nat.leb Nat.eqb]. fold (q 0%nat 0%nat) (q 1%nat 1%nat) (q 2%nat 2%nat) (q 1%nat 2%nat) (q 2%nat 1%nat).
    assert (q 1%nat 1%nat <> 0) by (intros Z; rewrite Z in L; lra). field; auto.
  - intros L1 L2. destruct (find_row 3 w 1 mv) as [j|] eqn:F.
    + pose proof F as F'. apply find_row_some in F as [Hj F]. assert (j = 2%nat) as -> by lia. destruct (step_add w 1 2) as (u & E & C); auto; try lia. unfold tail_det. rewrite E, !C by lia. unfold padd. cbn [Nat.ltb Nat.leb Nat.eqb]. fold (q 0%nat 0%nat) (q 1%nat 1%nat) (q 2%nat 2%nat) (q 1%nat 2%nat) (q 2%nat 1%nat).
      assert (q 2%nat 1%nat <> 0) by (intros Z; rewrite Z in L2; lra). field; auto.
    + exfalso. pose proof (find_row_none eps 3 w 1 mv 2 F ltac:(lia)) as N. unfold q in *. lra.
  - intros L1 L2. destruct (find_row 3 w 1 mv) as [j|] eqn:F.
    + exfalso. apply find_row_some in F as [Hj F]. assert (j = 2%nat) as -> by lia. unfold q in *. lra.
    + unfold tail_det. rewrite step_none; auto.
Qed.

Lemma det_sign_3 (v : mat R) : (eps : R) <= / 100 ->
  (forall i j, (i < 3)%nat -> (j < 3)%nat -> Rabs (mmul 3 (rc v) (mtr (rc v)) i j - delta i j) <= eps) ->
  det 3 (rc v) <> 0 /\ Rlt_bool (matrix_det 3 v) 0 = Rlt_bool (det 3 (rc v)) 0.
Proof.
  intros He D.
  assert (D00 := D 0%nat 0%nat ltac:(lia) ltac:(lia)). assert (D11 := D 1%nat 1%nat ltac:(lia) ltac:(lia)). assert (D22 := D 2%nat 2%nat ltac:(lia) ltac:(lia)). assert (D01 := D 0%nat 1%nat ltac:(lia) ltac:(lia)). assert (D02 := D 0%nat 2%nat ltac:(lia) ltac:(lia)). assert (D12 := D 1%nat 2%nat ltac:(lia) ltac:(lia)). clear D.
  unfold mmul, mtr, delta in *. cbn [Rsum Nat.eqb] in *.
  apply Rabs_le_inv in D00. apply Rabs_le_inv in D11. apply Rabs_le_inv in D22. apply Rabs_le_inv in D01. apply Rabs_le_inv in D02. apply Rabs_le_inv in D12.
  set (t := bpow radix2 (-1023)). assert (Ht : 0 < t <= / 1000000000000).
  { split; [apply bpow_gt_0|]. apply Rle_trans with (bpow radix2 (-40)); [apply bpow_le; lia|]. change (bpow radix2 (-40)) with (/ 1099511627776). lra. }
  pose proof (mv_ge 3 v 0) as MG. pose proof (mv_le v 0) as ML. cbn [Rsum] in ML. fold t in MG, ML. rewrite det_unfold.
  assert (DE : det 3 (rc v) = DM (rc v 0 0) (rc v 0 1) (rc v 0 2) (rc v 1 0) (rc v 1 1) (rc v 1 2) (rc v 2 0) (rc v 2 1) (rc v 2 2)) by (unfold det, det3, DM; ring). rewrite DE.
  assert (SG : det_step 3 v 0 = None \/ exists w, det_step 3 v 0 = Some w) by (destruct (det_step 3 v 0); eauto).
  pose (K := keep_case t Ht (rc v 0 0) (rc v 0 1) (rc v 0 2) (rc v 1 0) (rc v 1 1) (rc v 1 2) (rc v 2 0) (rc v 2 1) (rc v 2 2) ltac:(lra) ltac:(lra) ltac:(lra) ltac:(lra) ltac:(lra) ltac:(lra)).
  pose (K1 := add1_case t Ht (rc v 0 0) (rc v 0 1) (rc v 0 2) (rc v 1 0) (rc v 1 1) (rc v 1 2) (rc v 2 0) (rc v 2 1) (rc v 2 2) ltac:(lra) ltac:(lra) ltac:(lra) ltac:(lra) ltac:(lra) ltac:(lra)).
  pose (K2 := add2_case t Ht (rc v 0 0) (rc v 0 1) (rc v 0 2) (rc v 1 0) (rc v 1 1) (rc v 1 2) (rc v 2 0) (rc v 2 1) (rc v 2 2) ltac:(lra) ltac:(lra) ltac:(lra) ltac:(lra) ltac:(lra) ltac:(lra)).
  pose (DB := DM_big t Ht (rc v 0 0) (rc v 0 1) (rc v 0 2) (rc v 1 0) (rc v 1 1) (rc v 1 2) (rc v 2 0) (rc v 2 1) (rc v 2 2) ltac:(lra) ltac:(lra) ltac:(lra) ltac:(lra) ltac:(lra) ltac:(lra)).
  pose (EN := entries (rc v 0 0) (rc v 0 1) (rc v 0 2) (rc v 1 0) (rc v 1 1) (rc v 1 2) (rc v 2 0) (rc v 2 1) (rc v 2 2) ltac:(lra) ltac:(lra) ltac:(lra)).
  pose (KN := null_col t Ht (rc v 0 0) (rc v 0 1) (rc v 0 2) (rc v 1 0) (rc v 1 1) (rc v 1 2) (rc v 2 0) (rc v 2 1) (rc v 2 2) ltac:(lra) ltac:(lra) ltac:(lra) ltac:(lra) ltac:(lra) ltac:(lra)).
  clearbody K K1 K2 KN DB EN.
  split; [intros Z; rewrite Z, Rabs_R0 in DB; lra|].
  destruct EN as ((A1 & A2 & A3) & (A4 & A5 & A6) & (A7 & A8 & A9)).
  assert (MV : minval 3 v 0 <= 8 * t). { eapply Rle_trans; [exact ML|]. apply Rmult_le_compat_r; lra. }
  destruct (Rle_or_lt (minval 3 v 0) (rc v 0 0 * rc v 0 0)) as [L|L].
  - destruct (step_keep v 0) as (w & E & C); [lra|]. rewrite E. pose proof (tail_cases w) as (T1 & T2 & T3). pose proof (mv_ge 3 w 1) as WG. pose proof (mv_le w 1) as WL. cbn [Rsum] in WL. fold t in WL, WG.
    pose proof (C 0%nat 0%nat ltac:(lia) ltac:(lia)) as C00. pose proof (C 0%nat 1%nat ltac:(lia) ltac:(lia)) as C01. pose proof (C 1%nat 1%nat ltac:(lia) ltac:(lia)) as C11. pose proof (C 1%nat 2%nat ltac:(lia) ltac:(lia)) as C12. pose proof (C 2%nat 1%nat ltac:(lia) ltac:(lia)) as C21. pose proof (C 2%nat 2%nat ltac:(lia) ltac:(lia)) as C22. cbn [Nat.ltb Nat.leb Nat.eqb] in C00, C01, C11, C12, C21, C22. rewrite ?C00, ?C01, ?C11, ?C12, ?C21, ?C22 in WL. rewrite ?C00, ?C01, ?C11, ?C12, ?C21, ?C22 in T1. rewrite ?C00, ?C01, ?C11, ?C12, ?C21, ?C22 in T2. rewrite ?C00, ?C01, ?C11, ?C12, ?C21, ?C22 in T3.
    apply (K (minval 3 w 1)); [lra|lra|rewrite Rplus_0_l in WL; exact WL|exact T1|exact T2|exact T3].
  - destruct (find_row 3 v 0 (minval 3 v 0)) as [j|] eqn:F.
    + pose proof F as F'. apply find_row_some in F as [Hj F]. destruct (step_add v 0 j) as (w & E & C); auto; try lia. rewrite E. pose proof (tail_cases w) as (T1 & T2 & T3). pose proof (mv_ge 3 w 1) as WG. pose proof (mv_le w 1) as WL. cbn [Rsum] in WL. fold t in WL, WG.
      pose proof (C 0%nat 0%nat ltac:(lia) ltac:(lia)) as C00. pose proof (C 0%nat 1%nat ltac:(lia) ltac:(lia)) as C01. pose proof (C 1%nat 1%nat ltac:(lia) ltac:(lia)) as C11. pose proof (C 1%nat 2%nat ltac:(lia) ltac:(lia)) as C12. pose proof (C 2%nat 1%nat ltac:(lia) ltac:(lia)) as C21. pose proof (C 2%nat 2%nat ltac:(lia) ltac:(lia)) as C22. unfold padd in C00, C01, C11, C12, C21, C22. cbn [Nat.ltb Nat.leb Nat.eqb] in C00, C01, C11, C12, C21, C22. rewrite ?C00, ?C01, ?C11, ?C12, ?C21, ?C22 in WL. rewrite ?C00, ?C01, ?C11, ?C12, ?C21, ?C22 in T1. rewrite ?C00, ?C01, ?C11, ?C12, ?C21, ?C22 in T2. rewrite ?C00, ?C01, ?C11, ?C12, ?C21, ?C22 in T3.
      assert (j = 1%nat \/ j = 2%nat) as [-> | ->] by lia.
      * apply (K1 (minval 3 w 1)); [lra|lra|lra|rewrite Rplus_0_l in WL; exact WL|exact T1|exact T2|exact T3].
      * assert (rc v 1 0 * rc v 1 0 < minval 3 v 0) by (destruct (Rle_or_lt (minval 3 v 0) (rc v 1 0 * rc v 1 0)) as [Q|Q]; [exfalso; unfold find_row in F'; cbn [seq Nat.sub Nat.add find] in F'; tom; rewrite Rle_bool_true in F' by exact Q; discriminate F'|exact Q]). apply (K2 (minval 3 w 1)); [lra|lra|lra|lra|rewrite Rplus_0_l in WL; exact WL|exact T1|exact T2|exact T3].
    + exfalso. pose proof (find_row_none eps 3 v 0 _ 1 F ltac:(lia)) as N1. pose proof (find_row_none eps 3 v 0 _ 2 F ltac:(lia)) as N2. apply KN; lra.
Qed.
End M.
