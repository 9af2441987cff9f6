(** Rounding when a quaternion is made from four numbers, from an axis and an angle. *)
From Coq Require Import ZArith NArith Reals Bool SpecFloat Lia Lra List Psatz.
From Flocq Require Import Core IEEE754.BinarySingleNaN.
From Verif Require Import Base Scalar OrdLib RLib B64Lib B64Ops FloatOps RoundLib RSpec ConstModel VecModel RotModel QuatModel VecSpec ConstSpec RoundSpec QuatSpec QuatRoundSpec
  RoundProofs RoundProofs2 RoundProofs3 RoundProofs4 RoundProofs5 VecProofs QuatProofs DriftProofs QuatRound QuatRound2 QuatRound3 QuatRound4.
Import ListNotations.
Open Scope R_scope.

(** ** Sums of squares *)
Definition rap (x : spec_float) (X k h : R) : Prop := fl x /\ 0 <= X /\ Rabs (val x - X) <= k * u64 * X + h.
Lemma rap_sqr x : fl x -> val x * val x <= big -> rap (SFmul prec64 emax64 x x) (val x * val x) 1 eta64.
Proof.
  intros F B. assert (P : 0 <= val x * val x) by apply Rle_0_sqr. destruct (mul_ok x x F F) as [G E]; [rewrite Rabs_pos_eq; auto|]. split; auto. split; auto. rewrite E. pose proof (rnd_err (val x * val x)) as R. rewrite (Rabs_pos_eq (val x * val x)) in R by auto. lra.
Qed.
Lemma rap_add x y X Y k l h g : rap x X k h -> rap y Y l g -> 0 <= l <= k -> k <= 100 -> 0 <= h -> 0 <= g -> X + Y <= big / 2 -> h + g <= 1 -> rap (SFadd prec64 emax64 x y) (X + Y) (k + 2) (2 * (h + g)).
Proof.
  intros (Fx & X0 & Ex) (Fy & Y0 & Ey) L K H0 G0 B HG. nums.
  assert (UX : 0 <= u64 * X) by (apply Rmult_le_pos; lra). assert (UY : 0 <= u64 * Y) by (apply Rmult_le_pos; lra).
  assert (LY : l * u64 * Y <= k * u64 * Y). { apply Rmult_le_compat_r; auto. apply Rmult_le_compat_r; lra. }
  set (e := k * u64 * (X + Y) + (h + g)). assert (KU : k * u64 <= / 1000). { apply Rle_trans with (100 * u64); [apply Rmult_le_compat_r; lra|lra]. }
  assert (KU0 : 0 <= k * u64) by (apply Rmult_le_pos; lra).
  assert (G1 : Rabs (val x + val y - (X + Y)) <= e).
  { unfold e. pose proof (Rabs_triang (val x - X) (val y - Y)) as T. replace (val x - X + (val y - Y)) with (val x + val y - (X + Y)) in T by ring. lra. }
  assert (G2 : e <= / 1000 * (X + Y) + (h + g)) by (unfold e; assert (k * u64 * (X + Y) <= / 1000 * (X + Y)) by (apply Rmult_le_compat_r; lra); lra).
  assert (A : Rabs (val x + val y) <= (X + Y) + e). { pose proof (Rabs_triang (val x + val y - (X + Y)) (X + Y)) as T. replace (val x + val y - (X + Y) + (X + Y)) with (val x + val y) in T by ring. rewrite (Rabs_pos_eq (X + Y)) in T by lra. lra. }
  destruct (add_ok x y Fx Fy ltac:(lra)) as [F E]. split; auto. split; [lra|]. rewrite E.
  pose proof (rnd_add_err (val x) (val y) (fl_format _ Fx) (fl_format _ Fy)) as R.
  pose proof (Rabs_triang (rnd (val x + val y) - (val x + val y)) (val x + val y - (X + Y))) as T. replace (rnd (val x + val y) - (val x + val y) + (val x + val y - (X + Y))) with (rnd (val x + val y) - (X + Y)) in T by ring.
  assert (UA : u64 * Rabs (val x + val y) <= u64 * (2 * (X + Y) + (h + g))) by (apply Rmult_le_compat_l; lra).
  assert (UH : u64 * (h + g) <= 1 * (h + g)) by (apply Rmult_le_compat_r; lra). unfold e in *. lra.
Qed.
Lemma inv_u_big : / u64 <= big.
Proof. unfold u64. rewrite <- bpow_opp. apply bpow_le. lia. Qed.
Lemma root_eta L : 0 <= L -> L * L <= big / 2 -> L * eta64 <= u64 / 1000.
Proof.
  intros L0 H. assert (B : L <= bpow radix2 512).
  { apply Rnot_lt_le. intros Q. assert (P : bpow radix2 512 * bpow radix2 512 <= L * L) by (pose proof (bpow_gt_0 radix2 512); apply Rmult_le_compat; lra). rewrite <- bpow_plus in P. change (512 + 512)%Z with (1 + 1023)%Z in P. rewrite bpow_plus in P. fold big in P. change (bpow radix2 1) with 2 in P. pose proof big_large. lra. }
  pose proof eta64_pos. apply Rle_trans with (bpow radix2 512 * eta64); [apply Rmult_le_compat_r; lra|]. unfold eta64. rewrite <- bpow_plus.
  apply Rle_trans with (bpow radix2 (-53 + -10)); [apply bpow_le; lia|]. rewrite bpow_plus. fold u64.
  assert (bpow radix2 (-10) <= / 1000) by (unfold bpow; change (Z.pow_pos radix2 10) with 1024%Z; lra). pose proof u64_pos. unfold Rdiv. apply Rmult_le_compat_l; lra.
Qed.

Section B.
Variable m : libm.
Local Notation I := (B64 m).
Lemma make_ok w x y z : fl w -> fl x -> fl y -> fl z -> let h := mkH (val w) (val x) (val y) (val z) in low <= hnorm2 h <= big / 2 ->
  qdoubles (quat_make (H := I) w x y z) /\ hclose (rq4 (quat_make (H := I) w x y z)) (hdir h) (14 * u64).
Proof.
  intros Fw Fx Fy Fz h [Lo Hi]. nums. unfold hnorm2, h in Lo, Hi. cbn [hw hx hy hz] in Lo, Hi.
  pose proof (Rle_0_sqr (val w)) as W0. pose proof (Rle_0_sqr (val x)) as X0. pose proof (Rle_0_sqr (val y)) as Y0. pose proof (Rle_0_sqr (val z)) as Z0. unfold Rsqr in *.
  pose proof (rap_sqr w Fw ltac:(lra)) as Pw. pose proof (rap_sqr x Fx ltac:(lra)) as Px. pose proof (rap_sqr y Fy ltac:(lra)) as Py. pose proof (rap_sqr z Fz ltac:(lra)) as Pz.
  pose proof (rap_add _ _ _ _ _ _ _ _ Pw Px ltac:(lra) ltac:(lra) ltac:(lra) ltac:(lra) ltac:(lra) ltac:(lra)) as P1.
  pose proof (rap_add _ _ _ _ _ _ _ _ P1 Py ltac:(lra) ltac:(lra) ltac:(lra) ltac:(lra) ltac:(lra) ltac:(lra)) as P2.
  pose proof (rap_add _ _ _ _ _ _ _ _ P2 Pz ltac:(lra) ltac:(lra) ltac:(lra) ltac:(lra) ltac:(lra) ltac:(lra)) as (Fs & _ & Es).
  set (s := SFadd prec64 emax64 (SFadd prec64 emax64 (SFadd prec64 emax64 _ _) _) _) in *. set (N := val w * val w + val x * val x + val y * val y + val z * val z) in *.
  pose proof low_pos as L0. pose proof (tiny_rel 11 N ltac:(lia) Lo) as Tn. replace (INR 11) with 11 in Tn by (simpl; lra).
  assert (Es' : Rabs (val s - N) <= 8 * u64 * N) by lra.
  assert (UN : 8 * u64 * N <= / 1000 * N) by (apply Rmult_le_compat_r; lra). assert (S0 : 0 <= val s) by (apply Rabs_le_inv in Es'; lra).
  destruct (sqrt_ok s Fs S0) as [Fr Er]. pose proof (sqrt_round (val s) N 8 S0 Lo ltac:(lra) ltac:(lra) Es') as Rr. rewrite <- Er in Rr. set (r := SFsqrt prec64 emax64 s) in *.
  assert (Len : hlen h = sqrt N) by reflexivity. assert (Lp : 0 < sqrt N) by (apply sqrt_lt_R0; lra). assert (LL : sqrt N * sqrt N = N) by (apply sqrt_sqrt; lra). set (L := sqrt N) in *.
  assert (K10 : 8 + 2 = 10) by ring. rewrite K10 in Rr.
  destruct (inv_rel (val r) L 10 Lp ltac:(lra) ltac:(lra) ltac:(lra) Rr) as [Rp Ri].
  assert (D : forall c, fl c -> val c * val c <= N -> ap (SFdiv prec64 emax64 c r) (/ L * val c) (14 * u64)).
  { intros c Fc Bc. assert (C1 : Rabs (/ L * val c) <= 1).
    { rewrite Rabs_mult, (Rabs_pos_eq (/ L)) by (apply Rlt_le, Rinv_0_lt_compat; lra). apply Rmult_le_reg_l with L; [lra|]. rewrite <- Rmult_assoc, Rinv_r by lra. rewrite Rmult_1_l, Rmult_1_r. apply Rabs_le. split; nra. }
    assert (C2 : Rabs (val c / val r - / L * val c) <= 11 * u64 * Rabs (/ L * val c)).
    { replace (val c / val r - / L * val c) with (val c * (/ val r - / L)) by (unfold Rdiv; ring). rewrite !Rabs_mult. rewrite (Rabs_pos_eq (/ L)) by (apply Rlt_le, Rinv_0_lt_compat; lra).
      apply Rle_trans with (Rabs (val c) * ((10 + 1) * u64 * / L)); [apply Rmult_le_compat_l; [apply Rabs_pos|exact Ri]|]. lra. }
    assert (C3 : 11 * u64 * Rabs (/ L * val c) <= 11 * u64) by (rewrite <- (Rmult_1_r (11 * u64)) at 2; apply Rmult_le_compat_l; lra).
    assert (C4 : Rabs (val c / val r) <= big). { pose proof (Rabs_triang (val c / val r - / L * val c) (/ L * val c)) as T. replace (val c / val r - / L * val c + / L * val c) with (val c / val r) in T by ring. lra. }
    destruct (div_ok c r Fc Fr ltac:(lra) C4) as [F E]. split; auto. rewrite E.
    pose proof (rel_step (val c / val r) (rnd (val c / val r)) (/ L * val c) 11 eta64 ltac:(lra) ltac:(lra) C2 (rnd_err _)) as R.
    assert ((11 + 2) * u64 * Rabs (/ L * val c) <= 13 * u64) by (apply Rle_trans with ((11 + 2) * u64 * 1); [apply Rmult_le_compat_l; lra|lra]). lra. }
  assert (Mk : quat_make (H := I) w x y z = mkQ (SFdiv prec64 emax64 w r) (mkC [SFdiv prec64 emax64 x r; SFdiv prec64 emax64 y r; SFdiv prec64 emax64 z r] true) true 1) by reflexivity.
  rewrite Mk. clear Mk. clearbody r. pose proof (D w Fw ltac:(unfold N; lra)) as Dw. pose proof (D x Fx ltac:(unfold N; lra)) as Dx. pose proof (D y Fy ltac:(unfold N; lra)) as Dy. pose proof (D z Fz ltac:(unfold N; lra)) as Dz.
  split.
  - split; [apply fl_iff, Dw|]. split; [reflexivity|]. cbn [qv el]. constructor; [apply fl_iff, Dx|]. constructor; [apply fl_iff, Dy|]. constructor; [apply fl_iff, Dz|]. constructor.
  - unfold hclose, hdir, hscal. rewrite Len. unfold h. cbn [hw hx hy hz rq4 qw qv]. split; [apply Dw|]. split; [apply Dx|]. split; [apply Dy|apply Dz].
Qed.
Lemma fresh_of_close q h k : qdoubles q -> qvalid q = true -> qage q = 1%N -> hnorm2 h = 1 -> hclose (rq4 q) h (k * u64) -> 0 <= k <= 20 -> dfresh q.
Proof.
  intros D V A N C K. nums. assert (KU : 0 <= k * u64 <= 20 * u64) by (split; [apply Rmult_le_pos; lra|apply Rmult_le_compat_r; lra]). split; auto. split; auto. split; [rewrite A; lia|].
  pose proof (perturb_norm _ _ _ C ltac:(lra)) as P. rewrite N in P. assert (k * u64 * (k * u64) <= u64) by nra. lra.
Qed.
Lemma dir_norm h : 0 < hnorm2 h -> hnorm2 (hdir h) = 1.
Proof. intros P. rewrite <- hlen_sqr. rewrite hdir_len; [ring|]. unfold hlen. now apply sqrt_lt_R0. Qed.

(** ** An axis and an angle *)
Lemma axis_ok old axis angle : (0 <= axis <= 2)%Z -> accurate_at m (ndiv (Num := I) angle (n2 (H := I))) -> let t := real (ndiv (Num := I) angle (n2 (H := I))) in
  let s (k : Z) := if (axis =? k)%Z then sin t else 0 in
  qdoubles (quat_axis (H := I) old axis angle) /\ hclose (rq4 (quat_axis (H := I) old axis angle)) (mkH (cos t) (s 0%Z) (s 1%Z) (s 2%Z)) (2 * u64).
Proof.
  intros Ha (Fs & Fc & As & Ac) t s. nums. unfold quat_axis. destruct (Z.ltb_spec axis 0); [lia|]. destruct (Z.ltb_spec 2 axis); [lia|]. cbn [orb].
  set (h := ndiv (Num := I) angle (n2 (H := I))) in *. cbn [nsin ncos B64] in *. fold t in As, Ac. change half_ulp with u64 in *.
  assert (Z0 : finite_double (n0 (H := I))) by (split; [reflexivity|exact Logic.I]). assert (R0 : real (n0 (H := I)) = 0) by reflexivity.
  assert (Q : axis = 0%Z \/ axis = 1%Z \/ axis = 2%Z) by lia.
  destruct Q as [->|[->| ->]]; (split; [split; [exact Fc|split; [reflexivity|cbn [qv el]; repeat (constructor; [first [exact Fs|exact Z0]|]); constructor]]|]);
   unfold hclose, rq4; cbn [hw hx hy hz qw qv]; unfold rco; cbn [el tab map seq nth Nat.eqb Z.to_nat Z.eqb Pos.eqb]; unfold s; cbn [Z.eqb Pos.eqb];
   (split; [exact Ac|]); (split; [|split]); first [exact As | (change (Pos.to_nat 1) with 1%nat; change (Pos.to_nat 2) with 2%nat; cbn [Nat.eqb]; first [exact As | (change (real (n0 (H := I))) with 0; rewrite Rminus_diag_eq, Rabs_R0 by reflexivity; lra) | (change (real (S754_zero false)) with 0; rewrite Rminus_diag_eq, Rabs_R0 by reflexivity; lra)])].
Qed.
Lemma eps_fl : fl (neps (Num := I)). Proof. split; reflexivity. Qed.
Lemma rotation_ok old axis angle : doubles 3 axis -> 2 * epsR <= norm 3 (rco axis) -> norm2 3 (rco axis) <= big / 2 -> accurate_at m (ndiv (Num := I) angle (n2 (H := I))) ->
  let t := real (ndiv (Num := I) angle (n2 (H := I))) in let a i := rco axis i / norm 3 (rco axis) in let q := quat_rotation (H := I) old axis angle in
  qdoubles q /\ qvalid q = valid axis /\ qage q = 1%N /\ hclose (rq4 q) (mkH (cos t) (sin t * a 0%nat) (sin t * a 1%nat) (sin t * a 2%nat)) (18 * u64).
Proof.
  intros Da Lo Hi (Fs & Fc & As & Ac) t a. nums. pose proof epsR_u as EU. set (L := norm 3 (rco axis)) in *. assert (LL : L * L = norm2 3 (rco axis)) by apply norm_sqr.
  assert (Lp : 0 < L) by lra. assert (Low : low <= norm2 3 (rco axis)).
  { rewrite <- LL. apply Rle_trans with (u64 * u64); [unfold low, u64; rewrite <- bpow_plus; apply bpow_le; lia|]. apply Rmult_le_compat; lra. }
  destruct (mag_ok m 3 axis ltac:(lia) Da Hi) as (Fm & Pm & Em). specialize (Em Low). replace (INR 3) with 3 in Em by (simpl; lra). fold L in Em. assert (K8 : 3 + 5 = 8) by ring. rewrite K8 in Em.
  set (mg := mag (H := I) 3 axis) in *. assert (UL : u64 * L <= / 1000000000000000 * L) by (apply Rmult_le_compat_r; lra).
  assert (Mlo : epsR <= val mg) by (apply Rabs_le_inv in Em; lra).
  cbv zeta. unfold quat_rotation. fold mg. set (h := ndiv (Num := I) angle (n2 (H := I))) in *. change (nltb (Num := I) mg (neps (Num := I))) with (SFltb mg (neps (Num := I))). rewrite (ltb_ok _ _ Fm eps_fl). change (val (neps (Num := I))) with epsR. rewrite Rlt_bool_false by exact Mlo.
  cbn [nsin ncos ndiv B64] in *. fold t in As, Ac. change half_ulp with u64 in *. apply fl_iff in Fs. apply fl_iff in Fc. change (real (m_sin m h)) with (val (m_sin m h)) in As. set (s := m_sin m h) in *.
  assert (S1 : Rabs (sin t) <= 1) by (apply Rabs_le; apply SIN_bound). assert (S2 : Rabs (val s) <= 11 / 10).
  { pose proof (Rabs_triang (val s - sin t) (sin t)) as T. replace (val s - sin t + sin t) with (val s) in T by ring. lra. }
  destruct (inv_rel (val mg) L 8 Lp ltac:(lra) ltac:(lra) ltac:(lra) Em) as [Mp Mi]. assert (IL : 0 < / L) by (apply Rinv_0_lt_compat; lra).
  assert (C2 : Rabs (val s / val mg - / L * val s) <= 9 * u64 * Rabs (/ L * val s)).
  { replace (val s / val mg - / L * val s) with (val s * (/ val mg - / L)) by (unfold Rdiv; ring). rewrite !Rabs_mult. rewrite (Rabs_pos_eq (/ L)) by lra.
    apply Rle_trans with (Rabs (val s) * ((8 + 1) * u64 * / L)); [apply Rmult_le_compat_l; [apply Rabs_pos|exact Mi]|]. lra. }
  assert (IB : / L <= / u64 / 2). { replace (/ u64 / 2) with (/ (2 * u64)) by (field; lra). apply Rinv_le_contravar; lra. }
  pose proof inv_u_big as IU. assert (X1 : Rabs (/ L * val s) <= / L * (11 / 10)) by (rewrite Rabs_mult, (Rabs_pos_eq (/ L)) by lra; apply Rmult_le_compat_l; lra).
  assert (C3 : 9 * u64 * Rabs (/ L * val s) <= / 1000 * Rabs (/ L * val s)) by (apply Rmult_le_compat_r; [apply Rabs_pos|lra]).
  assert (C4 : Rabs (val s / val mg) <= big). { pose proof (Rabs_triang (val s / val mg - / L * val s) (/ L * val s)) as T. replace (val s / val mg - / L * val s + / L * val s) with (val s / val mg) in T by ring. pose proof (Rabs_pos (/ L * val s)). lra. }
  destruct (div_ok s mg Fs Fm ltac:(lra) C4) as [Fk Ek].
  pose proof (rel_step (val s / val mg) (rnd (val s / val mg)) (/ L * val s) 9 eta64 ltac:(lra) ltac:(lra) C2 (rnd_err _)) as Rk. rewrite <- Ek in Rk. set (k := SFdiv prec64 emax64 s mg) in *.
  pose proof (root_eta L ltac:(lra) ltac:(lra)) as LE.
  assert (V : forall i, (i < 3)%nat -> ap (nth i (el (vec_scale (H := I) 3 axis k)) (S754_zero false)) (sin t * a i) (18 * u64)).
  { intros i Hi3. unfold vec_scale. cbn [el]. rewrite nth_tab by auto. unfold at_, get. cbn [nmul B64]. change (n0 (H := B64 m)) with (S754_zero false). set (x := nth i (el axis) (S754_zero false)).
    assert (Fx : fl x) by now apply (co_fl 3). assert (Ex : rco axis i = val x) by reflexivity. pose proof (co_norm (rco axis) i Hi3) as Bx. fold L in Bx. rewrite Ex in Bx.
    assert (Y1 : Rabs (val x * (/ L * val s)) <= 11 / 10). { replace (val x * (/ L * val s)) with (/ L * val x * val s) by ring. rewrite !Rabs_mult, (Rabs_pos_eq (/ L)) by lra. replace (11 / 10) with (1 * (11 / 10)) by ring. apply Rmult_le_compat; auto using Rabs_pos; [apply Rmult_le_pos; auto using Rabs_pos; lra|].
      apply Rmult_le_reg_l with L; [lra|]. rewrite <- Rmult_assoc, Rinv_r by lra. lra. }
    assert (Y2 : Rabs (val x * val k - val x * (/ L * val s)) <= 122 / 10 * u64).
    { replace (val x * val k - val x * (/ L * val s)) with (val x * (val k - / L * val s)) by ring. rewrite Rabs_mult. apply Rle_trans with (Rabs (val x) * ((9 + 2) * u64 * Rabs (/ L * val s) + eta64)); [apply Rmult_le_compat_l; auto using Rabs_pos|].
      replace (Rabs (val x) * ((9 + 2) * u64 * Rabs (/ L * val s) + eta64)) with (11 * u64 * Rabs (val x * (/ L * val s)) + Rabs (val x) * eta64) by (rewrite (Rabs_mult (val x)); ring).
      assert (11 * u64 * Rabs (val x * (/ L * val s)) <= 11 * u64 * (11 / 10)) by (apply Rmult_le_compat_l; lra). assert (Rabs (val x) * eta64 <= L * eta64) by (apply Rmult_le_compat_r; lra). lra. }
    assert (Y3 : Rabs (val x * (/ L * val s) - sin t * a i) <= 2 * u64).
    { unfold a. rewrite Ex. replace (val x * (/ L * val s) - sin t * (val x / L)) with (/ L * val x * (val s - sin t)) by (unfold Rdiv; ring). rewrite Rabs_mult. replace (2 * u64) with (1 * (2 * u64)) by ring. apply Rmult_le_compat; auto using Rabs_pos.
      rewrite Rabs_mult, (Rabs_pos_eq (/ L)) by lra. apply Rmult_le_reg_l with L; [lra|]. rewrite <- Rmult_assoc, Rinv_r by lra. lra. }
    assert (Y4 : Rabs (val x * val k) <= 12 / 10). { pose proof (Rabs_triang (val x * val k - val x * (/ L * val s)) (val x * (/ L * val s))) as T. replace (val x * val k - val x * (/ L * val s) + val x * (/ L * val s)) with (val x * val k) in T by ring. lra. }
    destruct (mul_ok x k Fx Fk ltac:(lra)) as [F E]. split; auto. rewrite E. pose proof (rnd_err (val x * val k)) as R. assert (u64 * Rabs (val x * val k) <= u64 * (12 / 10)) by (apply Rmult_le_compat_l; lra).
    replace (rnd (val x * val k) - sin t * a i) with ((rnd (val x * val k) - val x * val k) + (val x * val k - val x * (/ L * val s)) + (val x * (/ L * val s) - sin t * a i)) by ring.
    eapply Rle_trans; [apply Rabs_triang|]. pose proof (Rabs_triang (rnd (val x * val k) - val x * val k) (val x * val k - val x * (/ L * val s))). lra. }
  split; [|split; [reflexivity|split; [reflexivity|]]].
  - split; [now apply fl_iff|]. split; [unfold dims; apply tab_length|]. rewrite Forall_forall. intros x X. apply (In_nth _ _ (S754_zero false)) in X. destruct X as (i & Hi3 & <-). apply fl_iff. apply V. cbn [qv vec_scale el] in Hi3. rewrite tab_length in Hi3. exact Hi3.
  - unfold hclose, rq4. cbn [hw hx hy hz qw qv]. split; [lra|]. split; [apply (V 0%nat); lia|]. split; [apply (V 1%nat); lia|apply (V 2%nat); lia].
Qed.
End B.
