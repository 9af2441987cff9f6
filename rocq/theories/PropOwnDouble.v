(** C45 and C71 in double precision: which points of a rotated box are met, and whether shapes meet their own corners, ends and centres. *)
From Coq Require Import ZArith NArith Reals Bool SpecFloat Lia Lra List Psatz.
From Flocq Require Import Core IEEE754.BinarySingleNaN.
From Verif Require Import Base Scalar OrdLib RLib B64Lib B64Ops FloatOps RSpec ConstModel VecModel RotModel VecSpec ConstSpec RotSpec RoundSpec RotRoundSpec MatLib
  RoundLib RoundProofs RoundProofs2 RoundProofs3 RoundProofs4 RoundProofs5 ShapeProofs3 BallDouble BoxDouble SphereDouble RotRound PropQuatDouble2 CoordRound PropRound PropRotDouble PropCoordDouble PropSphereDouble PropBoxDouble RbProofs RbDouble OwnDouble.
From Verif Require Import ShapeModel IntersectModel ShapeSpec.
Import ListNotations.
Open Scope R_scope.

(** The rotated box of real numbers r' is what the rotated box of doubles r stands for: same corner and sizes, and an orthogonal matrix
    that the doubles of r are within e of. *)
Definition rb_for (m : libm) (n : nat) (r : rotbox spec_float) (r' : rotbox R) (e : R) : Prop :=
  pteq n (co (corner0 r')) (rco (corner0 r)) /\ pteq n (co (rsize r')) (rco (rsize r)) /\ near m n (orient r) (ent (orient r')) e.
(** The error of the coordinates along the edges of a point at distance d from the base corner. *)
Definition edge_error (n : nat) (e d : R) : R := ((2 * INR n + 4) * half_ulp + INR n * e) * d + 2 * INR n * half_tiny.

Section Box.
Variable m : libm.
Variable n : nat.
Variable r : rotbox spec_float.
Variable r' : rotbox R.
Variable e : R.
Variable p : point spec_float.
Hypothesis N0 : (0 < n)%nat.
Hypothesis N1 : (Z.of_nat n <= 2 ^ 20)%Z.
Hypothesis SF : rb_for m n r r' e.
Hypothesis E0 : INR n * e <= / 20.
Hypothesis Dc : doubles n (corner0 r).
Hypothesis Ds : doubles n (rsize r).
Hypothesis Dp : doubles n p.
Hypothesis Bd : dist n (rco p) (rco (corner0 r)) <= bpow radix2 990.
Hypothesis Bs : norm n (rco (rsize r)) <= bpow radix2 990.
Notation E := (edge_error n e (dist n (rco p) (rco (corner0 r)))).
Lemma dist_norm : dist n (rco p) (rco (corner0 r)) = norm n (fun i => rco p i - rco (corner0 r) i).
Proof. reflexivity. Qed.
Lemma orth_r : orthogonal n (ent (orient r')).
Proof. destruct SF as (_ & _ & _ & O & _). exact O. Qed.
Lemma edge_near : let w := shift_ m n r p in doubles n w /\ forall i, (i < n)%nat -> Rabs (rco w i - edge n r' (rco p) i) <= E /\ Rabs (rco w i) <= bpow radix2 1000.
Proof.
  intros w. destruct SF as (Cc & _ & MO). rewrite dist_norm in Bd. destruct (shift_ok m n (orient r) (ent (orient r')) e N0 N1 MO E0 p (corner0 r) Dp Dc Bd) as [Dw Ew].
  split; [exact Dw|]. intros i Hi. specialize (Ew i Hi). fold (shift_ m n r p) in Ew. fold w in Ew.
  assert (Q : B_ n (ent (orient r')) (fun j => rco p j - rco (corner0 r) j) i = edge n r' (rco p) i).
  { unfold B_, edge, mapply. apply Rsum_ext. intros j Hj. now rewrite (Cc j Hj). }
  split; [rewrite <- Q; exact Ew|].
  pose proof (coord_norm n (B_ n (ent (orient r')) (fun j => rco p j - rco (corner0 r) j)) i Hi) as L. rewrite (B_norm m n (orient r) (ent (orient r')) e MO) in L.
  pose proof (b990 1%nat Nat.lt_0_1) as (B1 & B2 & B3). pose proof (k_small m n _ _ e N0 N1 MO E0) as K. pose proof (t_small n N0 N1) as T. pose proof u_small as U.
  set (D := norm n (fun i => rco p i - rco (corner0 r) i)) in *. assert (D0 : 0 <= D) by apply norm_nonneg.
  assert (KD : ((2 * INR n + 4) * u64 + INR n * e) * D <= 1 * D) by (apply Rmult_le_compat_r; lra).
  pose proof (Rabs_le_inv _ _ Ew). pose proof (Rabs_le_inv _ _ L). apply Rabs_le. lra.
Qed.
Lemma size_val i : (i < n)%nat -> fl (at_ (H := B64 m) (rsize r) i) /\ val (at_ (H := B64 m) (rsize r) i) = rco (rsize r) i /\ Rabs (rco (rsize r) i) <= bpow radix2 1000.
Proof.
  intros Hi. rewrite co_at. split; [eapply co_fl; eauto|]. split; [apply rco_val|]. eapply Rle_trans; [now apply (coord_norm n)|]. eapply Rle_trans; [exact Bs|apply bpow_le; lia].
Qed.
Lemma shift_val i : (i < n)%nat -> fl (at_ (H := B64 m) (shift_ m n r p) i) /\ val (at_ (H := B64 m) (shift_ m n r p) i) = rco (shift_ m n r p) i.
Proof. intros Hi. rewrite co_at. split; [eapply co_fl; [apply edge_near|auto]|apply rco_val]. Qed.
Lemma inside_met t : t + E <= 60 * u64 -> near_rotbox n t r' (rco p) -> i_rb_point (H := B64 m) n r p false = true.
Proof.
  intros L Nr. rewrite (near_edge n r' orth_r) in Nr. destruct edge_near as [Dw Ew]. rewrite point_axes. apply all_below_iff. intros i Hi. destruct (size_val i Hi) as (Fs & Vs & As). destruct (shift_val i Hi) as [Fw Vw].
  destruct (Ew i Hi) as [Ew1 Ew2]. destruct SF as (_ & Cs & _). specialize (Nr i Hi). rewrite (Cs i Hi) in Nr.
  apply axis_yes; rewrite ?Vs, ?Vw; auto. apply Rabs_le_inv in Ew1. lra.
Qed.
Lemma met_inside t : 61 * u64 + E <= t -> i_rb_point (H := B64 m) n r p false = true -> near_rotbox n t r' (rco p).
Proof.
  intros L Ip. apply (near_edge n r' orth_r). destruct edge_near as [Dw Ew]. rewrite point_axes in Ip. rewrite all_below_iff in Ip. intros i Hi. destruct (size_val i Hi) as (Fs & Vs & As). destruct (shift_val i Hi) as [Fw Vw].
  destruct (Ew i Hi) as [Ew1 Ew2]. destruct SF as (_ & Cs & _). specialize (Ip i Hi). cbv beta in Ip. apply axis_no in Ip; rewrite ?Vs, ?Vw in *; auto. rewrite (Cs i Hi). apply Rabs_le_inv in Ew1. lra.
Qed.
Lemma proper_met t : t + E < 0 -> near_rotbox n t r' (rco p) -> i_rb_point (H := B64 m) n r p true = true.
Proof.
  intros L Nr. rewrite (near_edge n r' orth_r) in Nr. destruct edge_near as [Dw Ew]. rewrite point_axes. apply all_below_iff. intros i Hi. destruct (size_val i Hi) as (Fs & Vs & As). destruct (shift_val i Hi) as [Fw Vw].
  destruct (Ew i Hi) as [Ew1 Ew2]. destruct SF as (_ & Cs & _). specialize (Nr i Hi). rewrite (Cs i Hi) in Nr.
  apply axis_proper; rewrite ?Vs, ?Vw; auto. apply Rabs_le_inv in Ew1. lra.
Qed.
Lemma met_proper : i_rb_point (H := B64 m) n r p true = true -> near_rotbox n E r' (rco p).
Proof.
  intros Ip. apply (near_edge n r' orth_r). destruct edge_near as [Dw Ew]. rewrite point_axes in Ip. rewrite all_below_iff in Ip. intros i Hi. destruct (size_val i Hi) as (Fs & Vs & As). destruct (shift_val i Hi) as [Fw Vw].
  destruct (Ew i Hi) as [Ew1 Ew2]. destruct SF as (_ & Cs & _). specialize (Ip i Hi). cbv beta in Ip. apply axis_proper in Ip; auto. rewrite ?Vs, ?Vw in *. rewrite (Cs i Hi). apply Rabs_le_inv in Ew1. lra.
Qed.
End Box.
Lemma lib_u : lib_eps = 60 * u64.
Proof. unfold lib_eps, u64. change (-52)%Z with (1 + -53)%Z. rewrite bpow_plus. change (bpow radix2 1) with 2. ring. Qed.

(** Intersect(RotBox, Point): a point that is inside the box by the error of its coordinates (less the tolerance) is met; a point that is met is
    within the tolerance and that error of the box.  The same with [proper], without the tolerance. *)
Theorem C45_point_double : forall (m : libm) n (r : rotbox spec_float) (r' : rotbox R) e (p : point spec_float), (0 < n)%nat -> (Z.of_nat n <= 2 ^ 20)%Z ->
  rb_for m n r r' e -> INR n * e <= / 20 -> doubles n (corner0 r) -> doubles n (rsize r) -> doubles n p ->
  dist n (rco p) (rco (corner0 r)) <= bpow radix2 990 -> norm n (rco (rsize r)) <= bpow radix2 990 ->
  let E := edge_error n e (dist n (rco p) (rco (corner0 r))) in
  (near_rotbox n (lib_eps - E) r' (rco p) -> i_rb_point (H := B64 m) n r p false = true) /\
  (i_rb_point (H := B64 m) n r p false = true -> near_rotbox n (lib_eps + half_ulp + E) r' (rco p)) /\
  (forall t, t < - E -> near_rotbox n t r' (rco p) -> i_rb_point (H := B64 m) n r p true = true) /\
  (i_rb_point (H := B64 m) n r p true = true -> near_rotbox n E r' (rco p)).
Proof.
  intros m n r r' e p N0 N1 SF E0 Dc Ds Dp Bd Bs E. rewrite lib_u. change half_ulp with u64. split; [|split; [|split]].
  - apply inside_met with (e := e); auto. fold E. lra.
  - apply (met_inside m n r r' e); auto. fold E. lra.
  - intros t Lt. apply (proper_met m n r r' e); auto. fold E. lra.
  - apply met_proper; auto.
Qed.
Print Assumptions C45_point_double.

(** * C71 *)
Lemma norm_abs n a : norm n (fun i => Rabs (a i)) = norm n a.
Proof. unfold norm, norm2, inner. f_equal. apply Rsum_ext. intros i Hi. rewrite <- Rabs_mult. apply Rabs_pos_eq. nra. Qed.
Lemma span_fits n e S Q k : (0 < n)%nat -> 0 <= e -> k = (2 * INR n + 4) * u64 + INR n * e -> 0 <= S -> 0 <= Q -> (INR n + 1) * k * S + INR n * u64 * Q <= 50 * u64 -> S <= 50 /\ Q <= 50.
Proof.
  intros N0 Ee Ek S0 Q0 F. pose proof u_small as U. assert (N1 : 1 <= INR n) by (change 1 with (INR 1); now apply le_INR).
  assert (0 <= INR n * e) by (apply Rmult_le_pos; lra). assert (u64 <= INR n * u64) by (rewrite <- (Rmult_1_l u64) at 1; apply Rmult_le_compat_r; lra). assert (K : u64 <= k) by lra.
  assert (A : u64 * S <= (INR n + 1) * k * S). { apply Rmult_le_compat_r; auto. rewrite <- (Rmult_1_l u64). apply Rmult_le_compat; lra. }
  assert (B : u64 * Q <= INR n * u64 * Q) by (apply Rmult_le_compat_r; lra).
  assert (0 <= u64 * S) by (apply Rmult_le_pos; lra). assert (0 <= u64 * Q) by (apply Rmult_le_pos; lra).
  split; apply Rmult_le_reg_l with u64; lra.
Qed.
Section Own.
Variable m : libm.
Variable n : nat.
Variable r : rotbox spec_float.
Variable O : nat -> nat -> R.
Variable e : R.
Hypothesis N0 : (0 < n)%nat.
Hypothesis N1 : (Z.of_nat n <= 2 ^ 20)%Z.
Hypothesis MO : near m n (orient r) O e.
Hypothesis E0 : INR n * e <= / 20.
Hypothesis Dc : doubles n (corner0 r).
Hypothesis Ds : doubles n (rsize r).
Hypothesis Fit : (INR n + 1) * ((2 * INR n + 4) * half_ulp + INR n * e) * norm n (rco (rsize r)) + INR n * half_ulp * norm n (rco (corner0 r)) <= 50 * half_ulp.
Lemma own_met w : doubles n w -> norm n (rco w) <= norm n (rco (rsize r)) -> (forall i, (i < n)%nat -> Rmin 0 (rco (rsize r) i) - eta64 <= rco w i <= Rmax 0 (rco (rsize r) i) + eta64) ->
  i_rb_point (H := B64 m) n r (vec_add (H := B64 m) n (corner0 r) (prod_vm (H := B64 m) n w (orient r))) false = true.
Proof.
  intros Dw Nw Rw. change half_ulp with u64 in Fit. pose proof (e_pos m n _ O e N0 MO) as Ee. destruct (span_fits n e _ _ _ N0 Ee eq_refl (norm_nonneg _ _) (norm_nonneg _ _) Fit) as [S50 Q50]. pose proof u_small as U.
  destruct (back_ok m n (orient r) O e N0 N1 MO E0 w (corner0 r) Dw Dc _ Nw Fit) as (Dp & Dv & Ev). set (p := vec_add (H := B64 m) n (corner0 r) (prod_vm (H := B64 m) n w (orient r))) in *. fold (shift_ m n r p) in Dv, Ev.
  assert (B : 1048576 <= bpow radix2 1000) by (change 1048576 with (bpow radix2 20); apply bpow_le; lia).
  rewrite point_axes. apply all_below_iff. intros i Hi. specialize (Ev i Hi). specialize (Rw i Hi). apply Rabs_le_inv in Ev.
  assert (Vs : val (at_ (H := B64 m) (rsize r) i) = rco (rsize r) i) by (rewrite co_at; apply rco_val). assert (Vw : val (at_ (H := B64 m) (shift_ m n r p) i) = rco (shift_ m n r p) i) by (rewrite co_at; apply rco_val).
  pose proof (coord_norm n (rco (rsize r)) i Hi) as Ls. pose proof (coord_norm n (rco w) i Hi) as Lw.
  assert (He : eta64 <= u64) by (unfold eta64, u64; apply bpow_le; lia).
  apply axis_yes; rewrite ?Vs, ?Vw; try (rewrite co_at; eapply co_fl; eauto); [lra| |].
  - apply Rabs_le_inv in Lw. apply Rabs_le. lra.
  - lra.
Qed.
Lemma masked k : let w := mkC (tab n (fun j => if N.testbit k (N.of_nat j) then at_ (H := B64 m) (rsize r) j else n0 (H := B64 m))) (valid (rsize r)) in
  doubles n w /\ norm n (rco w) <= norm n (rco (rsize r)) /\ (forall i, (i < n)%nat -> rco w i = if N.testbit k (N.of_nat i) then rco (rsize r) i else 0).
Proof.
  intros w. assert (V : forall i, (i < n)%nat -> rco w i = if N.testbit k (N.of_nat i) then rco (rsize r) i else 0).
  { intros i Hi. unfold w. rewrite rco_tab by auto. destruct (N.testbit k (N.of_nat i)); [rewrite co_at; apply rco_val|reflexivity]. }
  split; [|split; [|exact V]].
  - apply doubles_tab. intros i Hi. destruct (N.testbit k (N.of_nat i)); [rewrite co_at; eapply co_fl; eauto|apply n0_ok].
  - rewrite <- (norm_abs n (rco (rsize r))). apply norm_mono. intros i Hi. rewrite V by auto. destruct (N.testbit k (N.of_nat i)); [lra|rewrite Rabs_R0; apply Rabs_pos].
Qed.
Lemma halved : let w := vec_div (H := B64 m) n (rsize r) (n2 (H := B64 m)) in
  doubles n w /\ norm n (rco w) <= norm n (rco (rsize r)) /\ (forall i, (i < n)%nat -> Rmin 0 (rco (rsize r) i) <= rco w i <= Rmax 0 (rco (rsize r) i)).
Proof.
  intros w. assert (S50 : forall i, (i < n)%nat -> Rabs (rco (rsize r) i) <= 50).
  { intros i Hi. change half_ulp with u64 in Fit. pose proof (e_pos m n _ O e N0 MO) as Ee. destruct (span_fits n e _ _ _ N0 Ee eq_refl (norm_nonneg _ _) (norm_nonneg _ _) Fit) as [S50 Q50]. eapply Rle_trans; [now apply (coord_norm n)|exact S50]. }
  assert (F2 : fl (n2 (H := B64 m)) /\ val (n2 (H := B64 m)) = 2) by (split; [split; reflexivity|exact v2]). destruct F2 as [F2 V2].
  assert (V : forall i, (i < n)%nat -> fl (SFdiv prec64 emax64 (at_ (H := B64 m) (rsize r) i) (n2 (H := B64 m))) /\ val (SFdiv prec64 emax64 (at_ (H := B64 m) (rsize r) i) (n2 (H := B64 m))) = rnd (rco (rsize r) i / 2)).
  { intros i Hi. assert (Vi : val (at_ (H := B64 m) (rsize r) i) = rco (rsize r) i) by (rewrite co_at; apply rco_val). pose proof (S50 i Hi) as L. apply Rabs_le_inv in L.
    destruct (div_ok (at_ (H := B64 m) (rsize r) i) (n2 (H := B64 m))) as [Fd Vd]; auto; [rewrite co_at; eapply co_fl; eauto|rewrite V2; lra|rewrite V2, Vi|rewrite Vi, V2 in Vd; auto].
    apply Rle_trans with 50; [apply Rabs_le; lra|]. apply Rle_trans with (bpow radix2 20); [change (bpow radix2 20) with 1048576; lra|apply bpow_le; lia]. }
  assert (Fs : forall i, (i < n)%nat -> rnd (rco (rsize r) i) = rco (rsize r) i). { intros i Hi. rewrite <- rco_val. apply rnd_idem. eapply co_fl; eauto. }
  assert (Vw : forall i, (i < n)%nat -> rco w i = rnd (rco (rsize r) i / 2)). { intros i Hi. unfold w, vec_div. rewrite rco_tab by auto. apply V; auto. }
  assert (Rw : forall i, (i < n)%nat -> Rmin 0 (rco (rsize r) i) <= rco w i <= Rmax 0 (rco (rsize r) i)).
  { intros i Hi. rewrite Vw by auto. unfold Rmin, Rmax. destruct (Rle_dec 0 (rco (rsize r) i)) as [L|L].
    - split; [apply rnd_nonneg; lra|]. rewrite <- (Fs i Hi) at 2. apply rnd_mono. lra.
    - split; [rewrite <- (Fs i Hi) at 1; apply rnd_mono; lra|]. rewrite <- rnd_0. apply rnd_mono. lra. }
  split; [|split; [|exact Rw]].
  - unfold w, vec_div. apply doubles_tab. intros i Hi. apply V; auto.
  - rewrite <- (norm_abs n (rco (rsize r))). apply norm_mono. intros i Hi. specialize (Rw i Hi). unfold Rmin, Rmax in Rw. destruct (Rle_dec 0 (rco (rsize r) i)).
    + rewrite !Rabs_pos_eq by lra. lra.
    + rewrite !Rabs_left1 by lra. lra.
Qed.
End Own.

(** A small rotated box near the origin meets its own corners and its centre: e is the error of the elements of its matrix. *)
Theorem C71_rotbox_partial : forall (m : libm) n (r : rotbox spec_float) (O : nat -> nat -> R) e, (0 < n)%nat -> (Z.of_nat n <= 2 ^ 20)%Z -> near m n (orient r) O e -> INR n * e <= / 20 ->
  doubles n (corner0 r) -> doubles n (rsize r) ->
  (INR n + 1) * ((2 * INR n + 4) * half_ulp + INR n * e) * norm n (rco (rsize r)) + INR n * half_ulp * norm n (rco (corner0 r)) <= 50 * half_ulp ->
  (forall k c, rb_corner (H := B64 m) n r k = Ret c -> i_rb_point (H := B64 m) n r c false = true) /\
  i_rb_point (H := B64 m) n r (rb_center (H := B64 m) n r) false = true.
Proof.
  intros m n r O e N0 N1 MO E0 Dc Ds Fit. pose proof eta64_pos as He. split.
  - intros k c Ec. unfold rb_corner in Ec. destruct (k <? 2 ^ N.of_nat n)%N; [|discriminate]. cbn [oassert] in Ec. injection Ec as <-. destruct (k =? 0)%N.
    + rewrite point_axes. apply all_below_iff. intros i Hi. pose proof (b990 1%nat Nat.lt_0_1) as (B1 & B2 & B3). pose proof u_small as U. change half_ulp with u64 in Fit.
      pose proof (e_pos m n _ O e N0 MO) as Ee. destruct (span_fits n e _ _ _ N0 Ee eq_refl (norm_nonneg _ _) (norm_nonneg _ _) Fit) as [S50 Q50].
      destruct (shift_ok m n (orient r) O e N0 N1 MO E0 (corner0 r) (corner0 r) Dc Dc) as [Dw Ew].
      { rewrite (norm_ext n _ (fun _ => 0)) by (intros; ring). eapply Rle_trans; [apply norm_const; lra|]. rewrite Rmult_0_r. lra. }
      specialize (Ew i Hi). assert (Nz : norm n (fun i => rco (corner0 r) i - rco (corner0 r) i) = 0).
      { apply Rle_antisym; [|apply norm_nonneg]. rewrite (norm_ext n _ (fun _ => 0)) by (intros; ring). eapply Rle_trans; [apply norm_const; lra|]. rewrite Rmult_0_r. lra. }
      rewrite Nz, Rmult_0_r, Rplus_0_l in Ew.
      assert (Bz : B_ n O (fun j => rco (corner0 r) j - rco (corner0 r) j) i = 0). { unfold B_. rewrite (Rsum_ext n _ (fun _ => 0)) by (intros; ring). rewrite Rsum_const. ring. }
      rewrite Bz, Rminus_0_r in Ew. pose proof (RbDouble.eta_small n N0 N1) as Hn. assert (N1' : 1 <= INR n) by (change 1 with (INR 1); now apply le_INR).
      assert (ne : INR n * eta64 <= u64 / 1000). { eapply Rle_trans; [|exact Hn]. apply Rmult_le_compat_r; [lra|]. rewrite <- (Rmult_1_l (INR n)) at 1. apply Rmult_le_compat_r; lra. }
      fold (shift_ m n r (corner0 r)) in Dw, Ew. assert (Vw : val (at_ (H := B64 m) (shift_ m n r (corner0 r)) i) = rco (shift_ m n r (corner0 r)) i) by (rewrite co_at; apply rco_val).
      assert (Vs : val (at_ (H := B64 m) (rsize r) i) = rco (rsize r) i) by (rewrite co_at; apply rco_val). pose proof (coord_norm n (rco (rsize r)) i Hi) as Ls.
      assert (B : 1048576 <= bpow radix2 1000) by (change 1048576 with (bpow radix2 20); apply bpow_le; lia).
      apply axis_yes; rewrite ?Vs, ?Vw; try (rewrite co_at; eapply co_fl; eauto); [lra|lra|]. apply Rabs_le_inv in Ew. unfold Rmin, Rmax. destruct (Rle_dec 0 (rco (rsize r) i)); lra.
    + destruct (masked m n r Ds k) as (Dw & Nw & Vw). apply (own_met m n r O e N0 N1 MO E0 Dc Ds Fit); auto. intros i Hi. rewrite Vw by auto. unfold Rmin, Rmax. destruct (N.testbit k (N.of_nat i)), (Rle_dec 0 (rco (rsize r) i)); lra.
  - destruct (halved m n r O e N0 MO Ds Fit) as (Dw & Nw & Vw). apply (own_met m n r O e N0 N1 MO E0 Dc Ds Fit); auto. intros i Hi. specialize (Vw i Hi). lra.
Qed.
Print Assumptions C71_rotbox_partial.

(** A box of 70 by 50 with a corner at (7,7), turned by one radian: corner 2, computed by the library, is not in the box, by the library. *)
Definition M_one : rotmatrix spec_float := mkM [[S754_finite false 4866610526750348 (-53); S754_finite false 7579296827247854 (-53)]; [S754_finite true 7579296827247854 (-53); S754_finite false 4866610526750348 (-53)]] false true 1.
Lemma rot_one m : usual_sincos m -> rot_plane (H := B64 m) 2 0 1 d1 = Ret M_one.
Proof. intros (S1 & C1 & _ & _). unfold rot_plane. cbn [Nat.ltb Nat.leb Nat.eqb negb andb oassert]. change (nsin (Num := B64 m) d1) with (m_sin m d1). change (ncos (Num := B64 m) d1) with (m_cos m d1). rewrite S1, C1. reflexivity. Qed.
Theorem C71_rotbox_corner_refuted : forall m : libm, usual_sincos m -> exists M c, rot_plane (H := B64 m) 2 0 1 d1 = Ret M /\
  let r := mkRB (D2 7 7) (D2 70 50) M in rb_valid r = true /\ rb_corner (H := B64 m) 2 r 2 = Ret c /\ i_rb_point (H := B64 m) 2 r c false = false.
Proof.
  intros m U. exists M_one. eexists. split; [now apply rot_one|]. cbv zeta. split; [reflexivity|]. split; [vm_compute; reflexivity|]. vm_compute. reflexivity.
Qed.
Print Assumptions C71_rotbox_corner_refuted.

Lemma box_point_met (m : libm) n (b : axisbox spec_float) p : dpoint n (low b) -> dpoint n (high b) ->
  (forall i, (i < n)%nat -> Rabs (val (at_ (H := B64 m) (low b) i)) <= bpow radix2 1022 /\ Rabs (val (at_ (H := B64 m) (high b) i)) <= bpow radix2 1022) ->
  (forall i, (i < n)%nat -> fl (at_ (H := B64 m) p i) /\ val (at_ (H := B64 m) (low b) i) - 2 * eta64 <= val (at_ (H := B64 m) p i) <= val (at_ (H := B64 m) (high b) i) + 2 * eta64 /\ Rabs (val (at_ (H := B64 m) p i)) <= bpow radix2 1022) ->
  i_box_point (H := B64 m) n b p false = true.
Proof.
  intros L U B P. unfold i_box_point. apply all_below_iff. intros i Hi. destruct (B i Hi) as [B1 B2]. destruct (P i Hi) as (Fp & Pp & Bp). pose proof (dp m n (low b) i L Hi) as Fl. pose proof (dp m n (high b) i U Hi) as Fh.
  assert (Bg : bpow radix2 1022 * 2 = big) by (change 2 with (bpow radix2 1); rewrite <- bpow_plus; reflexivity). assert (He : eta64 <= u64) by (unfold eta64, u64; apply bpow_le; lia). pose proof u_small as Us.
  apply Rabs_le_inv in B1, B2, Bp. rewrite less_greater, !greater_no; auto; try (apply Rabs_le; lra); lra.
Qed.
(** The centre of a box is in the box, but for the smallest doubles, and is met; so are its corners. *)
Theorem C71_box : forall (m : libm) n (b : axisbox spec_float), dpoint n (low b) -> dpoint n (high b) -> box_ordered n (dbox b) ->
  (forall i, (i < n)%nat -> Rabs (co (dval (low b)) i) <= bpow radix2 1022 /\ Rabs (co (dval (high b)) i) <= bpow radix2 1022) ->
  near_box n (2 * half_tiny) (dbox b) (co (dval (box_center (H := B64 m) n b))) /\
  ((forall i, (i < n)%nat -> (co (dval (low b)) i = 0 \/ bpow radix2 (-1021) <= Rabs (co (dval (low b)) i)) /\ (co (dval (high b)) i = 0 \/ bpow radix2 (-1021) <= Rabs (co (dval (high b)) i))) ->
     in_box n (dbox b) (co (dval (box_center (H := B64 m) n b)))) /\
  i_box_point (H := B64 m) n b (box_center (H := B64 m) n b) false = true /\
  forall k, i_box_point (H := B64 m) n b (box_corner (H := B64 m) n b k) false = true.
Proof.
  intros m n b L U Ob Bd.
  assert (Vl : forall i, co (dval (low b)) i = val (at_ (H := B64 m) (low b) i)) by (intros; now rewrite (dval_co m)). assert (Vh : forall i, co (dval (high b)) i = val (at_ (H := B64 m) (high b) i)) by (intros; now rewrite (dval_co m)).
  assert (Vc : forall i, (i < n)%nat -> at_ (H := B64 m) (box_center (H := B64 m) n b) i = mid_ m (at_ (H := B64 m) (low b) i) (at_ (H := B64 m) (high b) i)).
  { intros i Hi. unfold box_center, midpoint. rewrite co_at. cbn [el]. rewrite nth_tab by auto. reflexivity. }
  assert (Bd' : forall i, (i < n)%nat -> Rabs (val (at_ (H := B64 m) (low b) i)) <= bpow radix2 1022 /\ Rabs (val (at_ (H := B64 m) (high b) i)) <= bpow radix2 1022) by (intros i Hi; rewrite <- Vl, <- Vh; auto).
  assert (Mid : forall i, (i < n)%nat -> _) by (intros i Hi; exact (conj (mid_value m _ _ (dp m n (low b) i L Hi) (dp m n (high b) i U Hi) (proj1 (Bd' i Hi)) (proj2 (Bd' i Hi)))
     (mid_between m _ _ (dp m n (low b) i L Hi) (dp m n (high b) i U Hi) (proj1 (Bd' i Hi)) (proj2 (Bd' i Hi)) ltac:(rewrite <- Vl, <- Vh; exact (Ob i Hi))))).
  pose proof eta64_pos as He.
  split; [|split; [|split]].
  - intros i Hi. unfold dbox. cbn [low high]. rewrite Vl, Vh, (dval_co m), Vc by auto. change half_tiny with eta64. apply (Mid i Hi).
  - intros X i Hi. unfold dbox. cbn [low high]. specialize (X i Hi). rewrite Vl, Vh in *. rewrite (dval_co m), Vc by auto. apply (Mid i Hi); apply X.
  - apply box_point_met; auto. intros i Hi. rewrite Vc by auto. destruct (Mid i Hi) as [[Fm Em] [Nm _]]. split; [exact Fm|]. split; [exact Nm|].
    rewrite Em. destruct (Bd' i Hi) as [Ba Bb]. apply rnd_abs_le; [lia|]. assert (R1 : Rabs (rnd (val (at_ (H := B64 m) (low b) i) / 2)) <= bpow radix2 1021) by (apply rnd_abs_le; [lia|]; change 1022%Z with (1021 + 1)%Z in Ba; rewrite bpow_plus in Ba; change (bpow radix2 1) with 2 in Ba; unfold Rdiv; rewrite Rabs_mult, (Rabs_pos_eq (/ 2)) by lra; lra).
    assert (R2 : Rabs (rnd (val (at_ (H := B64 m) (high b) i) / 2)) <= bpow radix2 1021) by (apply rnd_abs_le; [lia|]; change 1022%Z with (1021 + 1)%Z in Bb; rewrite bpow_plus in Bb; change (bpow radix2 1) with 2 in Bb; unfold Rdiv; rewrite Rabs_mult, (Rabs_pos_eq (/ 2)) by lra; lra).
    eapply Rle_trans; [apply Rabs_triang|]. change 1022%Z with (1021 + 1)%Z. rewrite bpow_plus. change (bpow radix2 1) with 2. lra.
  - intros k. apply box_point_met; auto. intros i Hi. destruct (corner_double m 0 n b k (conj L U)) as [_ Dk]. split; [apply (dp m n _ i Dk Hi)|].
    assert (C : at_ (H := B64 m) (box_corner (H := B64 m) n b k) i = at_ (H := B64 m) (low b) i \/ at_ (H := B64 m) (box_corner (H := B64 m) n b k) i = at_ (H := B64 m) (high b) i).
    { unfold box_corner. destruct (k <? 1)%N; auto. destruct (_ <=? k)%N; auto. rewrite co_at. cbn [el]. rewrite nth_tab by auto. destruct (N.testbit k (N.of_nat i)); auto. }
    specialize (Ob i Hi). unfold dbox in Ob. cbn [low high] in Ob. rewrite Vl, Vh in Ob. destruct (Bd' i Hi). destruct C as [-> | ->]; (split; [lra|assumption]).
Qed.
Print Assumptions C71_box.
Example C71_box_example : let b := mkB (D2 1 2) (D2 3 9) in dpoint 2 (low b) /\ dpoint 2 (high b) /\ box_ordered 2 (dbox b) /\
  forall i, (i < 2)%nat -> (Rabs (co (dval (low b)) i) <= bpow radix2 1022 /\ Rabs (co (dval (high b)) i) <= bpow radix2 1022) /\
    (co (dval (low b)) i = 0 \/ bpow radix2 (-1021) <= Rabs (co (dval (low b)) i)) /\ (co (dval (high b)) i = 0 \/ bpow radix2 (-1021) <= Rabs (co (dval (high b)) i)).
Proof.
  cbv zeta. cbn [low high]. split; [small_double|]. split; [small_double|]. split; [intros [|[|i]] Hi; try lia; dco|]. assert (B : 1048576 <= bpow radix2 1022) by (change 1048576 with (bpow radix2 20); apply bpow_le; lia).
  assert (C : bpow radix2 (-1021) <= 1) by (change 1 with (bpow radix2 0); apply bpow_le; lia).
  assert (V : forall x, 1 <= x <= 9 -> Rabs x <= bpow radix2 1022 /\ bpow radix2 (-1021) <= Rabs x) by (intros x X; rewrite Rabs_pos_eq by lra; lra).
  intros [|[|i]] Hi; try lia; unfold co, dval, D2; cbn [el map nth]; rewrite ?v1, ?v2, ?v3, ?v9; (split; [split; apply V; lra|split; right; apply V; lra]).
Qed.
(** The box of one point next to zero: its centre is not in it. *)
Theorem C71_box_centre_refuted : forall m : libm, exists b : axisbox spec_float, dpoint 1 (low b) /\ dpoint 1 (high b) /\ box_ordered 1 (dbox b) /\ box_valid b = true /\
  ~ in_box 1 (dbox b) (co (dval (box_center (H := B64 m) 1 b))).
Proof.
  intros m. set (t := S754_finite false 1 (-1074)). exists (mkB (mkC [t] true) (mkC [t] true)). cbn [low high].
  assert (D : dpoint 1 (mkC [t] true)) by (intros [|i] Hi; [split; reflexivity|lia]). do 2 (split; [exact D|]). split; [intros i Hi; apply Rle_refl|]. split; [reflexivity|].
  intros I. specialize (I 0%nat ltac:(lia)). destruct I as [I _]. rewrite (dval_co m) in I.
  assert (C : at_ (H := B64 m) (box_center (H := B64 m) 1 (mkB (mkC [t] true) (mkC [t] true))) 0 = S754_zero false) by (vm_compute; reflexivity). rewrite C in I.
  unfold co, dbox, dval in I. cbn [low el map nth] in I. unfold val, t, SF2R, Defs.F2R in I. cbn [Defs.Fnum Defs.Fexp SpecFloat.cond_Zopp] in I. pose proof (bpow_gt_0 radix2 (-1074)). lra.
Qed.
Print Assumptions C71_box_centre_refuted.

(** A ball meets its centre; with [proper] it does when its radius is not so small that its square is zero. *)
Theorem C71_ball : forall (m : libm) n (b : ball spec_float), (n <= 50)%nat -> doubles n (center b) -> finite_double (radius b) -> Rabs (real (radius b)) <= bpow radix2 500 ->
  i_ball_point (H := B64 m) n b (center b) false = true /\ (bpow radix2 (-495) <= real (radius b) -> i_ball_point (H := B64 m) n b (center b) true = true).
Proof.
  intros m n b Hn Dc Fr Br. assert (Z : dist2 n (rco (center b)) (rco (center b)) = 0). { unfold dist2, norm2, inner. rewrite (Rsum_ext n _ (fun _ => 0)) by (intros; ring). rewrite Rsum_const. ring. }
  split.
  - assert (Fr' : fl (radius b)) by now apply fl_iff. change real with val in Br. unfold i_ball_point, less_eq_. cbn [negb nleb B64].
    assert (S0 : fl (squared_distance (H := B64 m) n (center b) (center b)) /\ val (squared_distance (H := B64 m) n (center b) (center b)) = 0).
    { unfold squared_distance. match goal with |- context[if ?c then _ else _] => destruct c end; [|apply n0_ok]. apply nsum_zero. intros i Hi. cbv zeta. cbn [nmul nsub B64].
      assert (Fi : fl (at_ (H := B64 m) (center b) i)) by (rewrite co_at; eapply co_fl; eauto). destruct (sub_self _ Fi) as [F0 V0]. apply mul_zero; auto. }
    destruct S0 as [Fs Vs]. assert (B1 : Rabs (val (radius b) * val (radius b)) <= bpow radix2 1000). { rewrite Rabs_mult. change 1000%Z with (500 + 500)%Z. rewrite bpow_plus. apply Rmult_le_compat; auto using Rabs_pos. }
    assert (Bg : bpow radix2 1000 <= big) by (apply bpow_le; lia).
    destruct (mul_ok _ _ Fr' Fr') as [F2 V2]. { lra. }
    assert (R2 : 0 <= rnd (val (radius b) * val (radius b)) <= bpow radix2 1000). { split; [apply rnd_nonneg; nra|]. eapply Rle_trans; [apply Rle_abs|]. apply rnd_abs_le; [lia|exact B1]. }
    destruct (one_val m) as [F1 V1]. pose proof u_small as U. destruct (add_ok _ _ F1 eps_fl) as [F3 V3]. { rewrite V1, eps_u. rewrite Rabs_pos_eq by lra. pose proof big_ge. lra. }
    rewrite V1, eps_u in V3. assert (R3 : 0 <= val (SFadd prec64 emax64 (n1 (H := B64 m)) b64_eps) <= 2). { rewrite V3. split; [apply rnd_nonneg; lra|]. eapply Rle_trans; [apply Rle_abs|]. change 2 with (bpow radix2 1). apply rnd_abs_le; [lia|]. change (bpow radix2 1) with 2. rewrite Rabs_pos_eq by lra. lra. }
    assert (R4 : 0 <= rnd (val (radius b) * val (radius b)) * val (SFadd prec64 emax64 (n1 (H := B64 m)) b64_eps) <= bpow radix2 1000 * 2) by (split; [apply Rmult_le_pos; lra|apply Rmult_le_compat; lra]).
    assert (Bg2 : bpow radix2 1000 * 2 <= big). { change 2 with (bpow radix2 1). rewrite <- bpow_plus. apply bpow_le. lia. }
    cbn [nmul nadd neps B64]. destruct (mul_ok _ _ F2 F3) as [F4 V4]. { rewrite V2. rewrite Rabs_pos_eq by lra. lra. }
    rewrite leb_ok by auto. apply Rle_bool_true. rewrite Vs, V4, V2. apply rnd_nonneg. lra.
  - intros R1. change real with val in *. apply ball_point_complete; auto.
    + apply Rabs_le_inv in Br. lra.
    + rewrite Z. nra.
Qed.
Print Assumptions C71_ball.
Example C71_ball_example : doubles 2 (center (ball_make (H := B64 {| m_sin := fun x => x; m_cos := fun x => x; m_acos := fun x => x; m_atan2 := fun x _ => x; m_frexp_special := 0%Z |}) (D2 1 2) (b64_ofZ 3))) /\ finite_double (b64_ofZ 3) /\ bpow radix2 (-495) <= real (b64_ofZ 3) <= bpow radix2 500.
Proof.
  split; [split; [reflexivity|]; repeat constructor; apply fl_iff; split; reflexivity|]. split; [apply fl_iff; split; reflexivity|]. change real with val. rewrite v3.
  assert (4 <= bpow radix2 500) by (change 4 with (bpow radix2 2); apply bpow_le; lia). assert (bpow radix2 (-495) <= 1) by (change 1 with (bpow radix2 0); apply bpow_le; lia). lra.
Qed.
(** ... and does not when it is. *)
Theorem C71_ball_proper_refuted : forall m : libm, exists b : ball spec_float, doubles 2 (center b) /\ finite_double (radius b) /\ 0 < real (radius b) /\ ball_valid b = true /\ i_ball_point (H := B64 m) 2 b (center b) true = false.
Proof.
  intros m. exists (ball_make (H := B64 m) (D2 1 2) (S754_finite false 4503599627370496 (-652))). split; [split; [reflexivity|]; repeat constructor; apply fl_iff; split; reflexivity|]. split; [apply fl_iff; split; reflexivity|].
  split; [|split; [reflexivity|vm_compute; reflexivity]]. unfold real, SF2R, Defs.F2R. cbn [radius ball_make Defs.Fnum Defs.Fexp SpecFloat.cond_Zopp]. apply Rmult_lt_0_compat; [apply IZR_lt; reflexivity|apply bpow_gt_0].
Qed.
Print Assumptions C71_ball_proper_refuted.

(** A segment meets its own ends (and with [proper] does not). *)
Lemma seg_end_met (m : libm) n (s : segment spec_float) (p : point spec_float) : (0 < n)%nat -> (Z.of_nat n <= 2 ^ 20)%Z -> doubles n (end1 s) -> doubles n (end2 s) ->
  dist n (rco (end1 s)) (rco (end2 s)) <= bpow radix2 500 -> p = end1 s \/ p = end2 s -> i_seg_point (H := B64 m) n s p false = true /\ i_seg_point (H := B64 m) n s p true = false.
Proof.
  intros N0 N1 D1 D2' B P. set (v1 := vec_sub (H := B64 m) n (end1 s) p). set (v2 := vec_sub (H := B64 m) n (end2 s) p).
  assert (Dp : doubles n p) by (destruct P as [-> | ->]; auto). pose proof u_small as U.
  assert (Z : forall x, doubles n x -> forall i, (i < n)%nat -> rco (vec_sub (H := B64 m) n x x) i = 0).
  { intros x Dx i Hi. unfold vec_sub. rewrite rco_tab by auto. cbn [nsub B64]. apply sub_self. rewrite co_at. eapply co_fl; eauto. }
  assert (W : forall x, doubles n x -> norm n (fun i => rco x i - rco p i) <= bpow radix2 500 -> doubles n (vec_sub (H := B64 m) n x p) /\ norm2 n (rco (vec_sub (H := B64 m) n x p)) <= big / 2).
  { intros x Dx Bx. destruct (diff_ok m n N0 x p Dx Dp) as (Dd & _ & Nd). { eapply Rle_trans; [exact Bx|apply bpow_le; lia]. } split; [exact Dd|]. rewrite <- norm_sqr. set (y := norm n (rco (vec_sub (H := B64 m) n x p))) in *.
    assert (Y : y <= bpow radix2 501). { eapply Rle_trans; [exact Nd|]. change 501%Z with (500 + 1)%Z. rewrite bpow_plus. change (bpow radix2 1) with 2. rewrite (Rmult_comm (bpow radix2 500)). apply Rmult_le_compat; auto; [lra|apply norm_nonneg|lra]. }
    assert (0 <= y) by apply norm_nonneg. apply Rle_trans with (bpow radix2 501 * bpow radix2 501); [apply Rmult_le_compat; auto|]. unfold Rdiv. change (/ 2) with (bpow radix2 (-1)). unfold big. rewrite <- !bpow_plus. apply bpow_le. lia. }
  assert (Zn : forall x, norm n (fun i => rco x i - rco x i) <= bpow radix2 500). { intros x. rewrite (norm_ext n _ (fun _ => 0)) by (intros; ring). eapply Rle_trans; [apply norm_const; lra|]. rewrite Rmult_0_r. apply bpow_ge_0. }
  assert (Sy : norm n (fun i => rco (end2 s) i - rco (end1 s) i) <= bpow radix2 500). { rewrite (norm_ext n _ (fun i => (-1) * (rco (end1 s) i - rco (end2 s) i))) by (intros; ring). rewrite norm_scal_abs, abs_m1, Rmult_1_l. exact B. }
  destruct (W (end1 s) D1) as [Dv1 Nv1]. { destruct P as [-> | ->]; [apply Zn|exact B]. } destruct (W (end2 s) D2') as [Dv2 Nv2]. { destruct P as [-> | ->]; [exact Sy|apply Zn]. }
  fold v1 in Dv1, Nv1. fold v2 in Dv2, Nv2.
  assert (Q : (forall i, (i < n)%nat -> rco v1 i = 0) \/ (forall i, (i < n)%nat -> rco v2 i = 0)) by (unfold v1, v2; destruct P as [-> | ->]; [left|right]; apply Z; auto).
  assert (Dot : fl (dot (H := B64 m) n v1 v2) /\ val (dot (H := B64 m) n v1 v2) = 0).
  { unfold dot. cbv zeta. match goal with |- context[if ?c then _ else _] => destruct c end; [|apply n0_ok]. apply nsum_zero. intros i Hi. cbn [nmul B64].
    apply mul_zero; rewrite ?co_at; [eapply co_fl; eauto|eapply co_fl; eauto|]. rewrite !rco_val. destruct Q as [Q|Q]; [left|right]; auto. }
  destruct Dot as [Fd Vd]. destruct (sqr_mag_ok m n v1) as (F1 & _ & _); auto; [lia|]. destruct (sqr_mag_ok m n v2) as (F2 & _ & _); auto; [lia|].
  assert (Zs : forall v, (forall i, (i < n)%nat -> rco v i = 0) -> doubles n v -> val (sqr_mag (H := B64 m) n v) = 0).
  { intros v Zv Dv. unfold sqr_mag. apply nsum_zero. intros i Hi. cbn [nmul B64]. apply mul_zero; rewrite ?co_at; [eapply co_fl; eauto|eapply co_fl; eauto|]. rewrite rco_val. auto. }
  destruct (n0_ok m) as [F0 V0]. unfold i_seg_point. cbv zeta. fold v1 v2. split.
  - rewrite greater_no; auto; [|rewrite Vd, V0, Rminus_0_r, Rabs_R0; apply bpow_ge_0|lra]. cbn [nmul neps B64].
    destruct (mul_zero _ _ Fd Fd (or_introl Vd)) as [Fp Vp]. destruct (mul_zero _ _ F1 F2) as [Fq Vq]. { destruct Q as [Q|Q]; [left|right]; apply Zs; auto. } now apply equal_zero.
  - rewrite greater_proper, Vd, V0, Rle_bool_true by (auto; lra). reflexivity.
Qed.
Theorem C71_segment_ends : forall (m : libm) n (s : segment spec_float), (0 < n)%nat -> (Z.of_nat n <= 2 ^ 20)%Z -> doubles n (end1 s) -> doubles n (end2 s) ->
  dist n (rco (end1 s)) (rco (end2 s)) <= bpow radix2 500 ->
  i_seg_point (H := B64 m) n s (end1 s) false = true /\ i_seg_point (H := B64 m) n s (end2 s) false = true /\
  i_seg_point (H := B64 m) n s (end1 s) true = false /\ i_seg_point (H := B64 m) n s (end2 s) true = false.
Proof. intros m n s N0 N1 D1 D2' B. destruct (seg_end_met m n s (end1 s) N0 N1 D1 D2' B (or_introl eq_refl)). destruct (seg_end_met m n s (end2 s) N0 N1 D1 D2' B (or_intror eq_refl)). auto. Qed.
Print Assumptions C71_segment_ends.
(** Its centre can be missed: here the ends are 6 and 2 apart along the axes, a long way from the origin. *)
Theorem C71_segment_centre_refuted : forall m : libm, let s := mkS (D2 (2 ^ 53) (2 ^ 53)) (D2 (2 ^ 53 + 6) (2 ^ 53 + 2)) in
  doubles 2 (end1 s) /\ doubles 2 (end2 s) /\ seg_valid s = true /\ i_seg_point (H := B64 m) 2 s (seg_center (H := B64 m) 2 s) false = false.
Proof.
  intros m s. split; [split; [reflexivity|]; repeat constructor; apply fl_iff; split; reflexivity|]. split; [split; [reflexivity|]; repeat constructor; apply fl_iff; split; reflexivity|]. split; [reflexivity|vm_compute; reflexivity].
Qed.
Print Assumptions C71_segment_centre_refuted.
Example C71_segment_ends_example : let s := mkS (D2 1 2) (D2 9 3) in doubles 2 (end1 s) /\ doubles 2 (end2 s) /\ dist 2 (rco (end1 s)) (rco (end2 s)) <= bpow radix2 500.
Proof.
  cbv zeta. cbn [end1 end2]. split; [split; [reflexivity|]; repeat constructor; apply fl_iff; split; reflexivity|]. split; [split; [reflexivity|]; repeat constructor; apply fl_iff; split; reflexivity|].
  apply Rle_trans with 16; [|change 16 with (bpow radix2 4); apply bpow_le; lia]. change (norm 2 (fun i => rco (D2 1 2) i - rco (D2 9 3) i) <= 16).
  eapply Rle_trans; [apply (norm_mono 2 _ (fun _ => 8))|eapply Rle_trans; [apply norm_const; lra|cbn [INR]; lra]].
  intros [|[|i]] Hi; try lia; unfold rco, D2; cbn [el nth]; change real with val; rewrite ?v1, ?v2, ?v3, ?v9; apply Rabs_le; lra.
Qed.
(** The hypotheses about rotated boxes: a quarter by a quarter, with a corner at (1,2), turned by any angle at which the sine and the cosine are accurate. *)
Definition quarter : spec_float := S754_finite false 4503599627370496 (-54).
Example C71_rotbox_example : forall theta : spec_float, exists m X (E : rotmatrix R), rot_plane (H := B64 m) 2 0 1 theta = Ret X /\
  let r := mkRB (D2 1 2) (mkC [quarter; quarter] true) X in let e := 4 * half_ulp in
  rb_for m 2 r (mkRB (mkC [1; 2] true) (mkC [/ 4; / 4] true) E) e /\ INR 2 * e <= / 20 /\ doubles 2 (corner0 r) /\ doubles 2 (rsize r) /\
  (INR 2 + 1) * ((2 * INR 2 + 4) * half_ulp + INR 2 * e) * norm 2 (rco (rsize r)) + INR 2 * half_ulp * norm 2 (rco (corner0 r)) <= 50 * half_ulp.
Proof.
  intros theta. destruct (some_libm theta) as (m & A). destruct (C70_plane_rotation m 2 0 1 theta ltac:(lia) ltac:(lia) ltac:(lia) A) as (X & E & EX & _ & (DM & _ & _ & OM & CM)). exists m, X, E. split; [exact EX|]. cbv zeta. cbn [corner0 rsize].
  assert (Vq : val quarter = / 4) by (unfold val, quarter, SF2R, Defs.F2R; cbn [Defs.Fnum Defs.Fexp SpecFloat.cond_Zopp]; unfold bpow; change (Z.pow_pos radix2 54) with 18014398509481984%Z; lra).
  assert (Vc : forall i, (i < 2)%nat -> rco (D2 1 2) i = co (mkC [1; 2] true) i) by (intros [|[|i]] Hi; try lia; unfold rco, co, D2; cbn [el nth]; change real with val; rewrite ?v1, ?v2; reflexivity).
  assert (Vs : forall i, (i < 2)%nat -> rco (mkC [quarter; quarter] true) i = / 4) by (intros [|[|i]] Hi; try lia; unfold rco; cbn [el nth]; change real with val; exact Vq).
  pose proof u_small as U. change half_ulp with u64 in *.
  split; [|split; [|split; [|split]]].
  - split; [intros i Hi; symmetry; now apply Vc|]. split; [intros i Hi; cbn [rsize]; rewrite Vs by auto; destruct i as [|[|i]]; try lia; reflexivity|]. exact (conj DM (conj OM CM)).
  - cbn [INR]. lra.
  - split; [reflexivity|]. repeat constructor; apply fl_iff; split; reflexivity.
  - split; [reflexivity|]. repeat constructor; apply fl_iff; split; reflexivity.
  - assert (S1 : norm 2 (rco (mkC [quarter; quarter] true)) <= / 2).
    { eapply Rle_trans; [apply (norm_mono 2 _ (fun _ => / 4))|eapply Rle_trans; [apply norm_const; lra|cbn [INR]; lra]]. intros i Hi. rewrite Vs by auto. rewrite Rabs_pos_eq; lra. }
    assert (Q1 : norm 2 (rco (D2 1 2)) <= 4).
    { eapply Rle_trans; [apply (norm_mono 2 _ (fun _ => 2))|eapply Rle_trans; [apply norm_const; lra|cbn [INR]; lra]]. intros i Hi. rewrite Vc by auto. destruct i as [|[|i]]; try lia; unfold co; cbn [el nth]; rewrite Rabs_pos_eq; lra. }
    assert (0 <= norm 2 (rco (mkC [quarter; quarter] true))) by apply norm_nonneg. assert (0 <= norm 2 (rco (D2 1 2))) by apply norm_nonneg.
    cbn [INR]. set (a := norm 2 (rco (mkC [quarter; quarter] true))) in *. set (c := norm 2 (rco (D2 1 2))) in *.
    assert (A1 : u64 * a <= u64 * / 2) by (apply Rmult_le_compat_l; lra). assert (A2 : u64 * c <= u64 * 4) by (apply Rmult_le_compat_l; lra).
    replace ((1 + 1 + 1) * ((2 * (1 + 1) + 4) * u64 + (1 + 1) * (4 * u64)) * a + (1 + 1) * u64 * c) with (48 * (u64 * a) + 2 * (u64 * c)) by ring. lra.
Qed.
