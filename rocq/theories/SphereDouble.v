(** Bounding spheres in doubles: the centre, the radius, and the test of a point against the sphere. *)
From Coq Require Import ZArith NArith Reals Bool SpecFloat Lia Lra List Psatz.
From Flocq Require Import Core IEEE754.BinarySingleNaN.
From Verif Require Import Base Scalar RLib B64Lib B64Ops ConstSpec RoundLib RSpec RoundSpec ConstModel VecModel ShapeModel IntersectModel VecSpec ShapeSpec VecProofs VecProofs4 ShapeProofs BallProofs
  RoundProofs RoundProofs2 RoundProofs3 RoundProofs4 RoundProofs5 BallDouble RotRound CoordRound PropRound.
Import ListNotations.
Open Scope R_scope.

(** real arithmetic of the test, with 46 half units of slack *)
Lemma below_slack u q X s t N h : 0 < u <= / 10 ^ 12 -> 0 < q -> X <= q * (1 + 46 * u) -> 0 <= X -> 0 <= N <= 3 -> 0 <= h -> h <= u * q / 10000 ->
  Rabs (s - X) <= (N + 4) * u * X + 2 * N * h -> q * (1 + 56 * u) <= t -> s < t.
Proof.
  intros [U0 U1] Q Xq X0 [N0 N1] H0 H1 A Tt. apply Rabs_le_inv in A.
  assert (X2 : X <= 11 / 10 * q) by (eapply Rle_trans; [exact Xq|]; rewrite (Rmult_comm q); apply Rmult_le_compat_r; lra).
  assert (NX : (N + 4) * u * X <= 7 * u * (11 / 10 * q)) by (apply Rmult_le_compat; auto; [apply Rmult_le_pos; lra|apply Rmult_le_compat_r; lra]).
  assert (NH : 2 * N * h <= 6 * h) by (apply Rmult_le_compat_r; lra).
  assert (UQ : 0 < u * q) by (apply Rmult_lt_0_compat; lra). lra.
Qed.
Lemma ball_slack (m : libm) n (b : ball spec_float) (p : point spec_float) proper : (n <= 3)%nat -> doubles n (center b) -> doubles n p -> finite_double (radius b) ->
  bpow radix2 (-495) <= val (radius b) <= bpow radix2 500 -> dist2 n (rco (center b)) (rco p) <= val (radius b) * val (radius b) * (1 + 46 * u64) -> i_ball_point (H := B64 m) n b p proper = true.
Proof.
  intros Hn Dc Dp Fr [R1 R2] X. assert (Hn' : (n <= 50)%nat) by lia. pose proof u64_pos as [U0 _]. pose proof u_tiny as U1.
  pose proof (q_pos b R1) as Q0. pose proof (q_high b R1 R2) as Q1. pose proof (h_small b R1) as H1. destruct (threshold_ok m n b Hn' Fr R1 R2) as [Ft [T1 _]].
  set (q := val (radius b) * val (radius b)) in *. set (t := nmul (Num := B64 m) (nmul (Num := B64 m) (radius b) (radius b)) (nadd (Num := B64 m) (n1 (H := B64 m)) (neps (Num := B64 m)))) in *.
  assert (N3 : 0 <= INR n <= 3) by (split; [apply pos_INR|replace 3 with (INR 3) by (cbn; lra); now apply le_INR]).
  destruct (squared_distance_ok m n (center b) p ltac:(lia) Dc Dp) as (Fd & Pd & s & S0 & Es & Cl).
  { eapply Rle_trans; [exact X|]. apply Rle_trans with (q * 2); [apply Rmult_le_compat_l; lra|]. apply Rle_trans with (bpow radix2 1000 * 2); [lra|]. unfold big. change 1023%Z with (1000 + 23)%Z. rewrite bpow_plus.
    pose proof (bpow_gt_0 radix2 1000). unfold Rdiv. rewrite Rmult_assoc. apply Rmult_le_compat_l; [lra|]. unfold bpow. change (Z.pow_pos radix2 23) with 8388608%Z. lra. }
  assert (St : s < val t).
  { apply (below_slack u64 q (dist2 n (rco (center b)) (rco p)) s (val t) (INR n) eta64); auto; [apply dist2_nonneg|pose proof eta64_pos; lra]. }
  assert (Dt : val (squared_distance (H := B64 m) n (center b) p) < val t) by (destruct Cl as [E|[E _]]; cbv zeta in E; rewrite E; lra).
  unfold i_ball_point. fold t. unfold less_eq_. destruct proper; cbn [negb nleb nltb B64].
  - rewrite ltb_ok by auto. now apply Rlt_bool_true.
  - rewrite leb_ok by auto. apply Rle_bool_true. lra.
Qed.

(** the midpoint *)
Section Mid.
Variable m : libm.
Lemma half_vals : fl (nhalf (H := B64 m)) /\ val (nhalf (H := B64 m)) = / 2 /\ fl (nsub (Num := B64 m) (n1 (H := B64 m)) (nhalf (H := B64 m))) /\ val (nsub (Num := B64 m) (n1 (H := B64 m)) (nhalf (H := B64 m))) = / 2.
Proof.
  assert (E : nhalf (H := B64 m) = S754_finite false 4503599627370496 (-53)) by (vm_compute; reflexivity).
  assert (E2 : nsub (Num := B64 m) (n1 (H := B64 m)) (nhalf (H := B64 m)) = S754_finite false 4503599627370496 (-53)) by (vm_compute; reflexivity).
  rewrite E2, E. assert (V : val (S754_finite false 4503599627370496 (-53)) = / 2).
  { unfold val, SF2R, Defs.F2R. cbn [Defs.Fnum Defs.Fexp SpecFloat.cond_Zopp]. unfold bpow. change (Z.pow_pos radix2 53) with 9007199254740992%Z. lra. }
  assert (F : fl (S754_finite false 4503599627370496 (-53))) by (split; [vm_compute; reflexivity|reflexivity]). auto.
Qed.
Lemma mid_ok n p q : doubles n p -> doubles n q -> norm n (rco p) <= bpow radix2 900 -> norm n (rco q) <= bpow radix2 900 -> let c := midpoint (H := B64 m) n p q (nhalf (H := B64 m)) in
  doubles n c /\ norm n (fun i => rco c i - (rco p i + rco q i) / 2) <= 11 / 10 * u64 * (norm n (rco p) + norm n (rco q)) + 4 * INR n * eta64.
Proof.
  intros Dp Dq Bp Bq c. destruct half_vals as (Fh & Vh & Fc & Vc). pose proof u_small as U. pose proof eta64_pos as E0.
  assert (BB : 4 * bpow radix2 900 <= big) by (unfold big; change 1023%Z with (123 + 900)%Z; rewrite bpow_plus; pose proof (bpow_gt_0 radix2 900); assert (4 <= bpow radix2 123) by (apply Rle_trans with (bpow radix2 2); [change (bpow radix2 2) with 4; lra|apply bpow_le; lia]); nra).
  assert (E1 : eta64 <= 1) by (unfold eta64; change 1 with (bpow radix2 0); apply bpow_le; lia). assert (B1 : 1 <= bpow radix2 900) by (change 1 with (bpow radix2 0); apply bpow_le; lia).
  set (f i := nadd (Num := B64 m) (nmul (Num := B64 m) (at_ (H := B64 m) p i) (nsub (Num := B64 m) (n1 (H := B64 m)) (nhalf (H := B64 m)))) (nmul (Num := B64 m) (at_ (H := B64 m) q i) (nhalf (H := B64 m)))).
  assert (G : forall i, (i < n)%nat -> fl (f i) /\ Rabs (val (f i) - (rco p i + rco q i) / 2) <= 11 / 10 * u64 * (Rabs (rco p i) + Rabs (rco q i)) + 4 * eta64).
  { intros i Hi. pose proof (coord_norm n (rco p) i Hi) as Cp. pose proof (coord_norm n (rco q) i Hi) as Cq.
    assert (Fp : fl (at_ (H := B64 m) p i)) by (rewrite co_at; eapply co_fl; eauto). assert (Fq : fl (at_ (H := B64 m) q i)) by (rewrite co_at; eapply co_fl; eauto).
    assert (Vp : val (at_ (H := B64 m) p i) = rco p i) by reflexivity. assert (Vq : val (at_ (H := B64 m) q i) = rco q i) by reflexivity.
    destruct (mul_ok _ _ Fp Fc) as [F1 V1]. { rewrite Vp, Vc, Rabs_mult, (Rabs_pos_eq (/ 2)) by lra. lra. }
    destruct (mul_ok _ _ Fq Fh) as [F2 V2]. { rewrite Vq, Vh, Rabs_mult, (Rabs_pos_eq (/ 2)) by lra. lra. }
    rewrite Vp, Vc in V1. rewrite Vq, Vh in V2. pose proof (rnd_err (rco p i * / 2)) as R1. pose proof (rnd_err (rco q i * / 2)) as R2. rewrite <- V1 in R1. rewrite <- V2 in R2.
    rewrite Rabs_mult, (Rabs_pos_eq (/ 2)) in R1, R2 by lra. set (x := SFmul prec64 emax64 (at_ (H := B64 m) p i) (nsub (Num := B64 m) (n1 (H := B64 m)) (nhalf (H := B64 m)))) in *.
    set (y := SFmul prec64 emax64 (at_ (H := B64 m) q i) (nhalf (H := B64 m))) in *. set (P := Rabs (rco p i)) in *. set (Q := Rabs (rco q i)) in *.
    assert (P0 : 0 <= P) by apply Rabs_pos. assert (Q0 : 0 <= Q) by apply Rabs_pos.
    assert (UP : 0 <= u64 * P <= P / 1000) by (split; [apply Rmult_le_pos; lra|unfold Rdiv; rewrite (Rmult_comm P); apply Rmult_le_compat_r; lra]).
    assert (UQ : 0 <= u64 * Q <= Q / 1000) by (split; [apply Rmult_le_pos; lra|unfold Rdiv; rewrite (Rmult_comm Q); apply Rmult_le_compat_r; lra]).
    assert (S : Rabs (val x + val y) <= 11 / 20 * (P + Q) + 2 * eta64).
    { pose proof (Rabs_le_inv _ _ R1). pose proof (Rabs_le_inv _ _ R2). pose proof (Rle_abs (rco p i)). pose proof (Rle_abs (rco q i)). pose proof (Rle_abs (- rco p i)) as A1. pose proof (Rle_abs (- rco q i)) as A2. rewrite Rabs_Ropp in A1, A2.
      fold P in H1, A1. fold Q in H2, A2. apply Rabs_le. lra. }
    destruct (add_ok _ _ F1 F2) as [F3 V3]. { eapply Rle_trans; [exact S|]. lra. }
    split; [exact F3|]. pose proof (rnd_err (val x + val y)) as R3. change (val (f i)) with (val (SFadd prec64 emax64 x y)). rewrite V3.
    assert (R4 : u64 * Rabs (val x + val y) <= u64 * (11 / 20 * (P + Q) + 2 * eta64)) by (apply Rmult_le_compat_l; lra).
    assert (R5 : u64 * eta64 <= eta64 / 1000) by (unfold Rdiv; rewrite (Rmult_comm eta64); apply Rmult_le_compat_r; lra).
    pose proof (Rabs_le_inv _ _ R1). pose proof (Rabs_le_inv _ _ R2). pose proof (Rabs_le_inv _ _ R3). rewrite Rmult_plus_distr_l in R4. apply Rabs_le. lra. }
  split; [apply doubles_tab; intros; now apply G|].
  eapply Rle_trans; [apply (norm_mono n _ (fun i => 11 / 10 * u64 * (Rabs (rco p i) + Rabs (rco q i)) + 4 * eta64))|].
  { intros i Hi. unfold c, midpoint. rewrite rco_tab by auto. now apply G. }
  assert (NA : forall v, norm n (fun i => Rabs (v i)) = norm n v) by (intros v; unfold norm; f_equal; apply Rsum_ext; intros; rewrite <- Rabs_mult; apply Rabs_pos_eq, Rle_0_sqr).
  pose proof (norm_triangle n (fun i => 11 / 10 * u64 * (Rabs (rco p i) + Rabs (rco q i))) (fun _ => 4 * eta64)) as T1. cbv beta in T1.
  pose proof (norm_const n (4 * eta64) ltac:(lra)) as T2. rewrite norm_scal_abs, Rabs_pos_eq in T1 by lra. pose proof (norm_triangle n (fun i => Rabs (rco p i)) (fun i => Rabs (rco q i))) as T3. cbv beta in T3.
  rewrite (NA (rco p)), (NA (rco q)) in T3.
  assert (T4 : 11 / 10 * u64 * norm n (fun i => Rabs (rco p i) + Rabs (rco q i)) <= 11 / 10 * u64 * (norm n (rco p) + norm n (rco q))) by (apply Rmult_le_compat_l; lra). lra.
Qed.
End Mid.

(** real arithmetic of the whole: centre off by at most 9/2 half units of L, radius at least L/2 but for 11 half units *)
Lemma fits u L D r : 0 < u <= / 10 ^ 12 -> 0 < L -> 0 <= D <= L / 2 + 9 / 2 * u * L -> L / 2 * (1 - 11 * u) <= r -> D * D <= r * r * (1 + 46 * u).
Proof.
  intros [U0 U1] L0 [D0 D1] R. assert (D2 : D <= L / 2 * (1 + 9 * u)) by lra.
  assert (A : D * D <= (L / 2 * (1 + 9 * u)) * (L / 2 * (1 + 9 * u))) by (apply Rmult_le_compat; lra).
  assert (B0 : 0 <= L / 2 * (1 - 11 * u)) by (apply Rmult_le_pos; lra).
  assert (B : (L / 2 * (1 - 11 * u)) * (L / 2 * (1 - 11 * u)) <= r * r) by (apply Rmult_le_compat; lra).
  assert (C : r * r * (1 + 46 * u) >= (L / 2 * (1 - 11 * u)) * (L / 2 * (1 - 11 * u)) * (1 + 46 * u)) by (apply Rle_ge, Rmult_le_compat_r; lra).
  set (K := L / 2 * (L / 2)). assert (K0 : 0 < K) by (unfold K; apply Rmult_lt_0_compat; lra).
  replace ((L / 2 * (1 + 9 * u)) * (L / 2 * (1 + 9 * u))) with (K * ((1 + 9 * u) * (1 + 9 * u))) in A by (unfold K; ring).
  replace ((L / 2 * (1 - 11 * u)) * (L / 2 * (1 - 11 * u)) * (1 + 46 * u)) with (K * ((1 - 11 * u) * (1 - 11 * u) * (1 + 46 * u))) in C by (unfold K; ring).
  assert (P : (1 + 9 * u) * (1 + 9 * u) <= (1 - 11 * u) * (1 - 11 * u) * (1 + 46 * u)).
  { assert (0 <= u * u <= u / 1000000) by (split; [apply Rmult_le_pos; lra|unfold Rdiv; apply Rmult_le_compat_l; lra]). assert (0 <= u * u * u) by (apply Rmult_le_pos; lra). lra. }
  assert (K * ((1 + 9 * u) * (1 + 9 * u)) <= K * ((1 - 11 * u) * (1 - 11 * u) * (1 + 46 * u))) by (apply Rmult_le_compat_l; lra). lra.
Qed.

(** The ball about the midpoint of p and q with half their distance, and a point within half the distance of the exact midpoint. *)
Lemma sphere_ok (m : libm) n p q x proper : (n <= 3)%nat -> doubles n p -> doubles n q -> doubles n x -> let L := dist n (rco p) (rco q) in
  bpow radix2 (-20) <= L <= bpow radix2 400 -> norm n (rco p) + norm n (rco q) <= 4 * L -> dist n (fun i => (rco p i + rco q i) / 2) (rco x) <= L / 2 ->
  i_ball_point (H := B64 m) n (ball_make (H := B64 m) (midpoint (H := B64 m) n p q (nhalf (H := B64 m))) (ndiv (Num := B64 m) (distance (H := B64 m) n p q) (n2 (H := B64 m)))) x proper = true.
Proof.
  intros Hn Dp Dq Dx L [L1 L2] W X. pose proof u_small as U. pose proof u_tiny as U1. pose proof eta64_pos as E0. pose proof (bpow_gt_0 radix2 (-20)) as B20. assert (L0 : 0 < L) by lra.
  assert (N3 : 0 <= INR n <= 3) by (split; [apply pos_INR|replace 3 with (INR 3) by (cbn; lra); now apply le_INR]).
  assert (B4 : bpow radix2 400 * 16 <= bpow radix2 450) by (change 450%Z with (50 + 400)%Z; rewrite bpow_plus; pose proof (bpow_gt_0 radix2 400); assert (16 <= bpow radix2 50) by (apply Rle_trans with (bpow radix2 4); [change (bpow radix2 4) with 16; lra|apply bpow_le; lia]); nra).
  assert (B9 : bpow radix2 450 <= bpow radix2 900) by (apply bpow_le; lia).
  pose proof (norm_nonneg n (rco p)) as P0. pose proof (norm_nonneg n (rco q)) as Q0.
  destruct (mid_ok m n p q Dp Dq ltac:(lra) ltac:(lra)) as [Dc Ec]. set (c := midpoint (H := B64 m) n p q (nhalf (H := B64 m))) in *.
  assert (LL : L * L = dist2 n (rco p) (rco q)) by (unfold L, dist; apply sqrt_sqrt, dist2_nonneg).
  assert (B2 : dist2 n (rco p) (rco q) <= bpow radix2 1022).
  { rewrite <- LL. apply Rle_trans with (bpow radix2 400 * bpow radix2 400); [apply Rmult_le_compat; lra|]. rewrite <- bpow_plus. apply bpow_le. lia. }
  destruct (C68_distance m n p q ltac:(lia) Dp Dq B2) as (_ & Fd & Pd & Ed). change half_ulp with u64 in Ed. set (d := distance (H := B64 m) n p q) in *. apply fl_iff in Fd.
  assert (B40 : bpow radix2 (-40) <= L * L) by (change (-40)%Z with (-20 + -20)%Z; rewrite bpow_plus; apply Rmult_le_compat; lra).
  assert (Ed' : Rabs (real d - L) <= 10 * u64 * L).
  { destruct Ed as [E|[_ C]]; [rewrite <- LL; apply Rle_trans with (bpow radix2 (-40)); [apply bpow_le; lia|exact B40]| |].
    - eapply Rle_trans; [exact E|]. fold L. apply Rmult_le_compat_r; [lra|]. apply Rmult_le_compat_r; lra.
    - exfalso. specialize (C _ _ (fun i Hi => coord_norm n (rco p) i Hi) (fun i Hi => coord_norm n (rco q) i Hi)). rewrite <- LL in C.
      assert (M : Rmin (norm n (rco p)) (norm n (rco q)) <= 2 * L). { destruct (Rle_dec (norm n (rco p)) (norm n (rco q))); [rewrite Rmin_left by lra; lra|rewrite Rmin_right by lra; lra]. }
      assert (V : lib_eps = 60 * u64) by (unfold lib_eps, u64; change (-52)%Z with (1 + -53)%Z; rewrite bpow_plus; change (bpow radix2 1) with 2; ring). rewrite V in C.
      assert (C' : L * L <= 180 * u64 * Rmax 1 (2 * L)). { eapply Rle_trans; [exact C|]. replace (3 * (60 * u64)) with (180 * u64) by ring. apply Rmult_le_compat_l; [lra|]. apply Rle_max_compat_l. exact M. }
      assert (V40 : bpow radix2 (-40) = 8192 * u64) by (unfold u64; change (-40)%Z with (13 + -53)%Z; rewrite bpow_plus; f_equal).
      assert (V20 : bpow radix2 (-20) = 8589934592 * u64) by (unfold u64; change (-20)%Z with (33 + -53)%Z; rewrite bpow_plus; f_equal).
      destruct (Rle_dec 1 (2 * L)).
      + rewrite Rmax_right in C' by lra. assert (L <= 360 * u64). { apply Rmult_le_reg_r with L; [lra|]. lra. } lra.
      + rewrite Rmax_left in C' by lra. lra. }
  (* the radius *)
  assert (F2 : fl (n2 (H := B64 m)) /\ val (n2 (H := B64 m)) = 2).
  { split; [split; vm_compute; reflexivity|]. assert (E : n2 (H := B64 m) = S754_finite false 4503599627370496 (-51)) by (vm_compute; reflexivity). rewrite E.
    unfold val, SF2R, Defs.F2R. cbn [Defs.Fnum Defs.Fexp SpecFloat.cond_Zopp]. unfold bpow. change (Z.pow_pos radix2 51) with 2251799813685248%Z. lra. }
  destruct F2 as [F2 V2]. set (V := val d) in *. change (real d) with V in Ed', Pd.
  assert (UL : 0 <= u64 * L <= L / 1000000) by (split; [apply Rmult_le_pos; lra|unfold Rdiv; rewrite (Rmult_comm L); apply Rmult_le_compat_r; lra]).
  pose proof (Rabs_le_inv _ _ Ed') as Ed2. assert (V1 : 9 / 10 * L <= V <= 11 / 10 * L) by lra.
  assert (BB : bpow radix2 900 <= big) by (apply bpow_le; lia).
  destruct (div_ok d (n2 (H := B64 m)) Fd F2) as [Fr Er]; [rewrite V2; lra| |].
  { fold V. rewrite V2. rewrite Rabs_pos_eq by (apply Rmult_le_pos; lra). lra. }
  fold V in Er. rewrite V2 in Er. assert (Rr : Rabs (rnd (V / 2) - V / 2) <= u64 * (V / 2)).
  { rewrite <- (Rabs_pos_eq (V / 2)) at 3 by lra. apply rnd_rel_err. rewrite Rabs_pos_eq by lra. apply Rle_trans with (bpow radix2 (-20) * / 4); [|lra]. change (/ 4) with (bpow radix2 (-2)). rewrite <- bpow_plus. apply bpow_le. lia. }
  rewrite <- Er in Rr. set (r := SFdiv prec64 emax64 d (n2 (H := B64 m))) in *. change (ndiv (Num := B64 m) d (n2 (H := B64 m))) with r.
  pose proof (Rabs_le_inv _ _ Rr) as Rr2.
  assert (UV : 0 <= u64 * V <= 11 / 10 * (u64 * L)). { split; [apply Rmult_le_pos; lra|]. replace (11 / 10 * (u64 * L)) with (u64 * (11 / 10 * L)) by ring. apply Rmult_le_compat_l; lra. }
  assert (Lr : L / 2 * (1 - 11 * u64) <= val r).
  { assert (A : u64 * V <= u64 * L + 10 * u64 * (u64 * L)). { apply Rle_trans with (u64 * (L + 10 * u64 * L)); [apply Rmult_le_compat_l; lra|]. apply Req_le. ring. }
    (* the tenth unit of the distance and one of the division *)
    assert (A2 : V * (1 - u64) >= (L * (1 - 10 * u64)) * (1 - u64)) by (apply Rle_ge, Rmult_le_compat_r; lra).
    assert (A3 : (L * (1 - 10 * u64)) * (1 - u64) >= L * (1 - 11 * u64)) by (replace ((L * (1 - 10 * u64)) * (1 - u64)) with (L * (1 - 11 * u64) + 10 * u64 * (u64 * L)) by ring; assert (0 <= 10 * u64 * (u64 * L)) by (apply Rmult_le_pos; lra); lra).
    lra. }
  assert (Ur : val r <= L) by lra. assert (Hr : 2 / 5 * L <= val r) by lra.
  assert (Mk : ball_make (H := B64 m) c r = mkBall c r).
  { unfold ball_make. assert (Z : fl (n0 (H := B64 m)) /\ val (n0 (H := B64 m)) = 0) by (split; [split; reflexivity|reflexivity]). destruct Z as [Fz Vz]. cbn [nltb B64]. rewrite ltb_ok by auto. rewrite Vz. rewrite Rlt_bool_false by lra. reflexivity. }
  rewrite Mk. apply ball_slack; cbn [center radius]; auto.
  - now apply fl_iff.
  - split.
    + apply Rle_trans with (bpow radix2 (-20) * / 4); [change (/ 4) with (bpow radix2 (-2)); rewrite <- bpow_plus; apply bpow_le; lia|lra].
    + apply Rle_trans with (bpow radix2 400); [lra|apply bpow_le; lia].
  - pose proof (dist2_nonneg n (rco c) (rco x)) as Q. rewrite <- (sqrt_sqrt _ Q). fold (dist n (rco c) (rco x)).
    apply (fits u64 L); auto; [split; [lra|exact U1]|]. split; [apply dist_nonneg|].
    pose proof (dist_triangle n (rco c) (fun i => (rco p i + rco q i) / 2) (rco x)) as T. rewrite (dist_norm n (rco c) (fun i => (rco p i + rco q i) / 2)) in T.
    assert (NE : 4 * INR n * eta64 <= u64 * L / 100).
    { apply Rle_trans with (12 * eta64); [apply Rmult_le_compat_r; lra|]. unfold eta64. change (-1075)%Z with (-53 + (-20 + -1002))%Z. rewrite bpow_plus. fold u64. unfold Rdiv. rewrite (Rmult_assoc u64), (Rmult_comm 12), Rmult_assoc. apply Rmult_le_compat_l; [lra|].
      rewrite bpow_plus, Rmult_assoc. apply Rmult_le_compat; try lra; [pose proof (bpow_gt_0 radix2 (-1002)); lra|].
      assert (bpow radix2 (-1002) <= bpow radix2 (-20)) by (apply bpow_le; lia). assert (bpow radix2 (-20) <= / 1000000) by (unfold bpow; change (Z.pow_pos radix2 20) with 1048576%Z; lra). lra. }
    assert (WE : 11 / 10 * u64 * (norm n (rco p) + norm n (rco q)) <= 11 / 10 * u64 * (4 * L)) by (apply Rmult_le_compat_l; lra).
    lra.
Qed.
