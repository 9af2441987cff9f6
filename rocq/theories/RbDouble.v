(** Rotated boxes of doubles: the coordinates along the edges, and the comparisons of the tests. *)
From Coq Require Import ZArith NArith Reals Bool SpecFloat Lia Lra List Psatz.
From Flocq Require Import Core IEEE754.BinarySingleNaN.
From Verif Require Import Base Scalar OrdLib RLib B64Lib B64Ops FloatOps RSpec ConstModel VecModel RotModel VecSpec ConstSpec RotSpec RoundSpec RotRoundSpec QuatRoundSpec MatLib
  RoundLib RoundProofs RoundProofs2 RoundProofs3 RoundProofs4 RoundProofs5 BallDouble QuatRound RotRound CoordRound PropRound PropCoordDouble RbProofs.
From Verif Require Import ShapeModel IntersectModel ShapeSpec.
Import ListNotations.
Open Scope R_scope.

(** comparisons with the absolute tolerance *)
Section Cmp.
Variable m : libm.
Variables a b : spec_float.
Hypothesis Fa : fl a.
Hypothesis Fb : fl b.
Hypothesis Bab : Rabs (val a - val b) <= big.
Lemma greater_round : greater_ (H := B64 m) a b false = Rlt_bool (60 * u64) (rnd (val a - val b)).
Proof. unfold greater_. cbn [nltb nsub neps B64]. destruct (sub_ok a b Fa Fb Bab) as [Fs Es]. rewrite ltb_ok by (auto using eps_fl). now rewrite Es, eps_u. Qed.
Lemma greater_no : val a - val b <= 60 * u64 -> greater_ (H := B64 m) a b false = false.
Proof. intros L. rewrite greater_round. apply Rlt_bool_false. apply rnd_mono in L. rewrite <- eps_u in L. rewrite (rnd_idem _ eps_fl), eps_u in L. exact L. Qed.
Lemma greater_yes : greater_ (H := B64 m) a b false = false -> val a - val b <= 61 * u64.
Proof.
  rewrite greater_round. intros F. destruct (Rlt_bool_spec (60 * u64) (rnd (val a - val b))) as [|L]; [discriminate|]. pose proof u_small as U.
  destruct (Rle_dec (val a - val b) 0) as [N|N]; [lra|].
  pose proof (rnd_add_err (val a) (- val b) ltac:(now apply fl_format) ltac:(apply generic_format_opp; now apply fl_format)) as R. fold (val a - val b) in R. rewrite (Rabs_pos_eq (val a - val b)) in R by lra. apply Rabs_le_inv in R.
  set (d := val a - val b) in *. assert (d * (1 - u64) <= 60 * u64) by lra. apply Rmult_le_reg_r with (1 - u64); [lra|]. assert (61 * u64 * u64 <= u64 / 2) by (assert (u64 * u64 <= u64 * / 1000000000000000) by (apply Rmult_le_compat_l; lra); lra). lra.
Qed.
Lemma greater_proper : greater_ (H := B64 m) a b true = Rle_bool (val b) (val a).
Proof. unfold greater_. cbn [nleb B64]. now rewrite leb_ok. Qed.
End Cmp.
Lemma less_greater (m : libm) a b p : less_ (H := B64 m) a b p = greater_ (H := B64 m) b a p.
Proof. reflexivity. Qed.

Section Box.
Variable m : libm.
Variable n : nat.
Variable M : rotmatrix spec_float.
Variable O : nat -> nat -> R.
Variable e : R.
Hypothesis N0 : (0 < n)%nat.
Hypothesis N1 : (Z.of_nat n <= 2 ^ 20)%Z.
Hypothesis MO : near m n M O e.
Hypothesis E0 : INR n * e <= / 20.

Lemma shift_ok x o : doubles n x -> doubles n o -> norm n (fun i => rco x i - rco o i) <= bpow radix2 990 ->
  let w := prod_mv (H := B64 m) n M (vec_sub (H := B64 m) n x o) in
  doubles n w /\ forall i, (i < n)%nat -> Rabs (rco w i - B_ n O (fun j => rco x j - rco o j) i) <= ((2 * INR n + 4) * u64 + INR n * e) * norm n (fun i => rco x i - rco o i) + 2 * INR n * eta64.
Proof.
  intros Dx Do B w. pose proof u_small as U. pose proof (b990 1%nat Nat.lt_0_1) as (B1 & B2 & B3). destruct (diff_ok m n N0 x o Dx Do B) as (Dd & Ed & Nd). set (d := vec_sub (H := B64 m) n x o) in *. set (D := norm n (fun i => rco x i - rco o i)) in *.
  pose proof (k_small m n M O e N0 N1 MO E0) as K.
  assert (D0 : 0 <= D) by apply norm_nonneg. assert (UD : 0 <= u64 * D <= D / 10) by (split; [apply Rmult_le_pos; lra|unfold Rdiv; rewrite (Rmult_comm D); apply Rmult_le_compat_r; lra]).
  destruct (FB m n M O e N0 N1 MO E0 d Dd ltac:(lra)) as [Dw Ew]. split; [exact Dw|]. intros i Hi. specialize (Ew i Hi). fold w in Ew. set (k := (2 * INR n + 2) * u64 + INR n * e) in *.
  assert (KD : k * norm n (rco d) <= k * D + u64 * D / 10).
  { eapply Rle_trans; [apply Rmult_le_compat_l; [lra|exact Nd]|]. assert (k * (u64 * D) <= / 10 * (u64 * D)) by (apply Rmult_le_compat_r; lra). lra. }
  pose proof (B_lip m n M O e MO (rco d) (fun j => rco x j - rco o j) i Hi) as L. cbv beta in L. pose proof (Rle_trans _ _ _ L Ed) as L'.
  pose proof (Rabs_le_inv _ _ L'). pose proof (Rabs_le_inv _ _ Ew). replace (((2 * INR n + 4) * u64 + INR n * e) * D) with (k * D + 2 * (u64 * D)) by (unfold k; ring). apply Rabs_le. lra.
Qed.
(** a corner *)
Lemma corner_ok w o : doubles n w -> doubles n o -> norm n (rco w) <= bpow radix2 990 -> norm n (rco o) <= bpow radix2 990 ->
  let c := vec_add (H := B64 m) n o (prod_vm (H := B64 m) n w M) in
  doubles n c /\ forall i, (i < n)%nat -> Rabs (rco c i - (rco o i + A_ n O (rco w) i)) <= ((2 * INR n + 4) * u64 + INR n * e) * norm n (rco w) + u64 * norm n (rco o) + 4 * INR n * eta64.
Proof.
  intros Dw Do Bw Bo c. pose proof u_small as U. pose proof (b990 1%nat Nat.lt_0_1) as (B1 & B2 & B3). pose proof (k_small m n M O e N0 N1 MO E0) as K. pose proof (t_small n N0 N1) as T.
  destruct (FA m n M O e N0 N1 MO E0 w Dw ltac:(lra)) as [Df Ef]. set (f := prod_vm (H := B64 m) n w M) in *. set (X := norm n (rco w)) in *. set (Q := norm n (rco o)) in *. set (k := (2 * INR n + 2) * u64 + INR n * e) in *. set (t := 2 * INR n * eta64) in *.
  assert (X0 : 0 <= X) by apply norm_nonneg. assert (Q0 : 0 <= Q) by apply norm_nonneg.
  assert (KX : 0 <= k * X <= X / 10) by (split; [apply Rmult_le_pos; lra|unfold Rdiv; rewrite (Rmult_comm X); apply Rmult_le_compat_r; lra]).
  assert (S : forall i, (i < n)%nat -> Rabs (rco o i + rco f i) <= Q + X + (k * X + t)).
  { intros i Hi. pose proof (coord_norm n (rco o) i Hi) as C. fold Q in C. pose proof (coord_norm n (A_ n O (rco w)) i Hi) as L. rewrite (A_norm m n M O e MO) in L. fold X in L. specialize (Ef i Hi).
    pose proof (Rabs_le_inv _ _ C). pose proof (Rabs_le_inv _ _ L). pose proof (Rabs_le_inv _ _ Ef). apply Rabs_le. lra. }
  destruct (add_round m n o f Do Df) as [Dp Ep]. { intros i Hi. specialize (S i Hi). lra. }
  split; [exact Dp|]. intros i Hi. unfold c. rewrite Ep by auto. specialize (S i Hi). specialize (Ef i Hi).
  pose proof (rnd_add_err (rco o i) (rco f i) ltac:(eapply co_fmt; eauto) ltac:(eapply co_fmt; eauto)) as R. change rnd with nearest in R.
  assert (R2 : u64 * Rabs (rco o i + rco f i) <= u64 * (Q + X + (k * X + t))) by (apply Rmult_le_compat_l; lra).
  assert (R3 : u64 * (k * X + t) <= u64 * (X / 10) + u64 * t) by (rewrite <- Rmult_plus_distr_l; apply Rmult_le_compat_l; lra).
  assert (R4 : u64 * t <= t) by (rewrite <- (Rmult_1_l t) at 2; apply Rmult_le_compat_r; lra).
  pose proof (Rabs_le_inv _ _ R). pose proof (Rabs_le_inv _ _ Ef).
  assert (u64 * (Q + X + (k * X + t)) <= u64 * Q + 2 * (u64 * X) + t).
  { rewrite !Rmult_plus_distr_l in *. assert (0 <= u64 * X) by (apply Rmult_le_pos; lra). lra. }
  replace (((2 * INR n + 4) * u64 + INR n * e) * X + u64 * Q + 4 * INR n * eta64) with (k * X + 2 * (u64 * X) + u64 * Q + 2 * t) by (unfold k, t; ring). apply Rabs_le. lra.
Qed.
End Box.

(** One axis of the test: between the ends, with room [t]. *)
Section Axis.
Variable m : libm.
Variables s w : spec_float.
Hypothesis Fs : fl s.
Hypothesis Fw : fl w.
Hypothesis Bs : Rabs (val s) <= bpow radix2 1000.
Hypothesis Bw : Rabs (val w) <= bpow radix2 1000.
Definition axis_ok (p : bool) : bool :=
  if nltb (Num := B64 m) s (n0 (H := B64 m)) then negb (less_ (H := B64 m) w s p || greater_ (H := B64 m) w (n0 (H := B64 m)) p)
  else negb (greater_ (H := B64 m) w s p || less_ (H := B64 m) w (n0 (H := B64 m)) p).
Lemma zero_fl : fl (n0 (H := B64 m)) /\ val (n0 (H := B64 m)) = 0.
Proof. split; [vm_compute; auto|]. reflexivity. Qed.
Lemma axis_bounds : Rabs (val s - val w) <= big /\ Rabs (val w - val s) <= big /\ Rabs (val w - val (n0 (H := B64 m))) <= big /\ Rabs (val (n0 (H := B64 m)) - val w) <= big.
Proof.
  rewrite (proj2 zero_fl). pose proof (b990 1%nat Nat.lt_0_1) as (B1 & B2 & B3). pose proof (Rabs_le_inv _ _ Bs). pose proof (Rabs_le_inv _ _ Bw). repeat split; apply Rabs_le; lra.
Qed.
Lemma axis_yes : Rmin 0 (val s) - 60 * u64 <= val w <= Rmax 0 (val s) + 60 * u64 -> axis_ok false = true.
Proof.
  intros W. destruct zero_fl as [F0 V0]. destruct axis_bounds as (A1 & A2 & A3 & A4). unfold axis_ok. cbn [nltb B64]. rewrite ltb_ok, V0 by auto. rewrite !less_greater. unfold Rmin, Rmax in W. destruct (Rle_dec 0 (val s)) as [L|L].
  - rewrite Rlt_bool_false by lra. rewrite !greater_no; auto; lra.
  - rewrite Rlt_bool_true by lra. rewrite !greater_no; auto; lra.
Qed.
Lemma axis_no : axis_ok false = true -> Rmin 0 (val s) - 61 * u64 <= val w <= Rmax 0 (val s) + 61 * u64.
Proof.
  destruct zero_fl as [F0 V0]. destruct axis_bounds as (A1 & A2 & A3 & A4). unfold axis_ok. cbn [nltb B64]. rewrite ltb_ok, V0 by auto. rewrite !less_greater. unfold Rmin, Rmax. intros E. destruct (Rle_dec 0 (val s)) as [L|L].
  - rewrite Rlt_bool_false in E by lra. apply negb_true_iff, orb_false_iff in E. destruct E as [E1 E2]. apply greater_yes in E1, E2; auto. lra.
  - rewrite Rlt_bool_true in E by lra. apply negb_true_iff, orb_false_iff in E. destruct E as [E1 E2]. apply greater_yes in E1, E2; auto. lra.
Qed.
Lemma axis_proper : axis_ok true = true <-> Rmin 0 (val s) < val w < Rmax 0 (val s).
Proof.
  destruct zero_fl as [F0 V0]. unfold axis_ok. cbn [nltb B64]. rewrite ltb_ok, V0 by auto. rewrite !less_greater. unfold Rmin, Rmax. destruct (Rle_dec 0 (val s)) as [L|L].
  - rewrite Rlt_bool_false by lra. rewrite !greater_proper, V0, negb_true_iff, orb_false_iff by auto. split.
    + intros [E1 E2]. destruct (Rle_bool_spec (val s) (val w)); [discriminate|]. destruct (Rle_bool_spec (val w) 0); [discriminate|]. lra.
    + intros E. split; apply Rle_bool_false; lra.
  - rewrite Rlt_bool_true by lra. rewrite !greater_proper, V0, negb_true_iff, orb_false_iff by auto. split.
    + intros [E1 E2]. destruct (Rle_bool_spec (val w) (val s)); [discriminate|]. destruct (Rle_bool_spec 0 (val w)); [discriminate|]. lra.
    + intros E. split; apply Rle_bool_false; lra.
Qed.
End Axis.

(** ** The point test *)
Section Point.
Variable m : libm.
Variable n : nat.
Variable r : rotbox spec_float.
Variable p : point spec_float.
Definition shift_ : vector spec_float := prod_mv (H := B64 m) n (orient r) (vec_sub (H := B64 m) n p (corner0 r)).
Lemma point_axes pr : i_rb_point (H := B64 m) n r p pr = all_below n (fun i => axis_ok m (at_ (H := B64 m) (rsize r) i) (at_ (H := B64 m) shift_ i) pr).
Proof. reflexivity. Qed.
End Point.

(** A corner, or the centre, is found again at its place along the edges. *)
Section Back.
Variable m : libm.
Variable n : nat.
Variable M : rotmatrix spec_float.
Variable O : nat -> nat -> R.
Variable e : R.
Hypothesis N0 : (0 < n)%nat.
Hypothesis N1 : (Z.of_nat n <= 2 ^ 20)%Z.
Hypothesis MO : near m n M O e.
Hypothesis E0 : INR n * e <= / 20.
Variables w o : coords spec_float.
Hypothesis Dw : doubles n w.
Hypothesis Do : doubles n o.
Variable S : R.
Hypothesis Sw : norm n (rco w) <= S.
Hypothesis Fit : (INR n + 1) * ((2 * INR n + 4) * u64 + INR n * e) * S + INR n * u64 * norm n (rco o) <= 50 * u64.
Lemma nu_one : INR n * u64 <= / 1000000.
Proof.
  pose proof (t_small n N0 N1). assert (INR n <= 1048576). { rewrite INR_IZR_INZ. apply IZR_le. change 1048576%Z with (2 ^ 20)%Z. exact N1. }
  pose proof u_small. apply Rle_trans with (1048576 * u64); [apply Rmult_le_compat_r; lra|lra].
Qed.
Lemma eta_small : INR n * INR n * eta64 <= u64 / 1000.
Proof.
  assert (B : INR n <= bpow radix2 20). { rewrite INR_IZR_INZ. change (bpow radix2 20) with (IZR (2 ^ 20)). now apply IZR_le. }
  pose proof (pos_INR n) as P. apply Rle_trans with (bpow radix2 20 * bpow radix2 20 * eta64).
  - apply Rmult_le_compat_r; [apply bpow_ge_0|]. apply Rmult_le_compat; auto.
  - unfold eta64, u64. rewrite <- !bpow_plus. apply Rle_trans with (bpow radix2 (-53 + -10)); [apply bpow_le; lia|]. rewrite bpow_plus. change (bpow radix2 (-10)) with (/ 1024). pose proof (bpow_gt_0 radix2 (-53)). lra.
Qed.
Lemma back_ok : let c := vec_add (H := B64 m) n o (prod_vm (H := B64 m) n w M) in
  let v := prod_mv (H := B64 m) n M (vec_sub (H := B64 m) n c o) in
  doubles n c /\ doubles n v /\ forall i, (i < n)%nat -> Rabs (rco v i - rco w i) <= 59 * u64.
Proof.
  intros c v. pose proof u_small as U. pose proof (b990 1%nat Nat.lt_0_1) as (B1 & B2 & B3). pose proof (k_small m n M O e N0 N1 MO E0) as K0. pose proof (e_pos m n M O e N0 MO) as Ee. pose proof nu_one as NU. pose proof eta_small as NE.
  assert (N1' : 1 <= INR n) by (change 1 with (INR 1); now apply le_INR).
  set (k := (2 * INR n + 4) * u64 + INR n * e) in *. assert (K : 0 <= k <= / 10).
  { assert (0 <= INR n * e) by (apply Rmult_le_pos; lra). assert (0 <= INR n * u64) by (apply Rmult_le_pos; lra). unfold k. lra. }
  set (Q := norm n (rco o)) in *. assert (Q0 : 0 <= Q) by apply norm_nonneg. assert (S0 : 0 <= S) by (eapply Rle_trans; [apply norm_nonneg|exact Sw]).
  set (x := INR n * (k * S + u64 * Q)). assert (kS : 0 <= k * S) by (apply Rmult_le_pos; lra). assert (uQ : 0 <= u64 * Q) by (apply Rmult_le_pos; lra).
  assert (X : 0 <= x /\ x + k * S <= 50 * u64). { split; [apply Rmult_le_pos; lra|]. unfold x. replace (INR n * (k * S + u64 * Q) + k * S) with ((INR n + 1) * k * S + INR n * u64 * Q) by ring. exact Fit. }
  assert (kS2 : k * S + u64 * Q <= x). { unfold x. rewrite <- (Rmult_1_l (k * S + u64 * Q)) at 1. apply Rmult_le_compat_r; lra. }
  assert (Sb : S <= 50). { apply Rmult_le_reg_l with u64; [lra|]. apply Rle_trans with (k * S); [|lra]. apply Rmult_le_compat_r; auto. unfold k. assert (0 <= INR n * e) by (apply Rmult_le_pos; lra). assert (0 <= INR n * u64) by (apply Rmult_le_pos; lra). lra. }
  assert (Qb : Q <= 50) by (apply Rmult_le_reg_l with u64; lra).
  assert (B6 : 1048576 <= bpow radix2 990) by (change 1048576 with (bpow radix2 20); apply bpow_le; lia).
  destruct (corner_ok m n M O e N0 N1 MO E0 w o Dw Do ltac:(lra) ltac:(fold Q; lra)) as [Dc Ec]. fold c in Dc, Ec. fold k Q in Ec.
  assert (H0 : 0 <= eta64) by apply bpow_ge_0.
  set (h := k * S + u64 * Q + 4 * INR n * eta64). assert (Ec' : forall i, (i < n)%nat -> Rabs (rco c i - (rco o i + A_ n O (rco w) i)) <= h).
  { intros i Hi. specialize (Ec i Hi). eapply Rle_trans; [exact Ec|]. unfold h. assert (k * norm n (rco w) <= k * S) by (apply Rmult_le_compat_l; lra). lra. }
  assert (Hh : INR n * h <= x + u64 / 250). { unfold h, x. rewrite Rmult_plus_distr_l. assert (INR n * (4 * INR n * eta64) = 4 * (INR n * INR n * eta64)) as -> by ring. lra. }
  assert (Nd : norm n (fun j => (rco c j - rco o j) - A_ n O (rco w) j) <= INR n * h).
  { eapply Rle_trans; [apply (norm_mono n _ (fun _ => h))|apply norm_const]. 2: { unfold h. assert (0 <= INR n * eta64) by (apply Rmult_le_pos; lra). lra. }
    intros i Hi. replace (rco c i - rco o i - A_ n O (rco w) i) with (rco c i - (rco o i + A_ n O (rco w) i)) by ring. auto. }
  assert (Nn : norm n (fun j => rco c j - rco o j) <= S + INR n * h).
  { pose proof (norm_triangle n (A_ n O (rco w)) (fun j => (rco c j - rco o j) - A_ n O (rco w) j)) as T. rewrite (A_norm m n M O e MO) in T.
    rewrite (norm_ext n (fun j => rco c j - rco o j) (fun j => A_ n O (rco w) j + (rco c j - rco o j - A_ n O (rco w) j))) by (intros; ring). lra. }
  destruct (shift_ok m n M O e N0 N1 MO E0 c o Dc Do) as [Dv Ev]. { lra. }
  fold v in Dv, Ev. fold k in Ev. split; [exact Dc|]. split; [exact Dv|]. intros i Hi. specialize (Ev i Hi).
  pose proof (B_lip m n M O e MO (fun j => rco c j - rco o j) (A_ n O (rco w)) i Hi) as L. rewrite (BA_ m n M O e MO) in L by auto. cbv beta in L.
  assert (kN : k * norm n (fun j => rco c j - rco o j) <= k * S + / 10 * (INR n * h)).
  { eapply Rle_trans; [apply Rmult_le_compat_l; [lra|exact Nn]|]. rewrite Rmult_plus_distr_l. apply Rplus_le_compat_l. apply Rmult_le_compat_r; [|lra]. apply Rmult_le_pos; [lra|]. unfold h. assert (0 <= INR n * eta64) by (apply Rmult_le_pos; lra). lra. }
  assert (ne : INR n * eta64 <= u64 / 1000). { eapply Rle_trans; [|exact NE]. apply Rmult_le_compat_r; auto. rewrite <- (Rmult_1_l (INR n)) at 1. apply Rmult_le_compat_r; lra. }
  pose proof (Rabs_le_inv _ _ Ev). pose proof (Rabs_le_inv _ _ (Rle_trans _ _ _ L Nd)). apply Rabs_le. lra.
Qed.
End Back.
