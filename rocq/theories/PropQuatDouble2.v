(** C65 and C68 in doubles: quaternions as they are made, vectors and points rotated by them, and vectors rotated by the result of any
    number of operations.  [sandwich q v] is q v q^-1 for q of length one, [hvec] its vector part. *)
From Coq Require Import ZArith NArith Reals Bool SpecFloat Lia Lra List Psatz.
From Flocq Require Import Core IEEE754.BinarySingleNaN.
From Verif Require Import Base Scalar OrdLib RLib B64Lib B64Ops FloatOps RSpec ConstModel VecModel RotModel QuatModel VecSpec ConstSpec RoundSpec QuatSpec QuatRoundSpec
  RoundLib RoundProofs RoundProofs2 RoundProofs3 RoundProofs4 RoundProofs5 QuatProofs DriftProofs QuatRound QuatRound2 QuatRound3 QuatRound4 QuatRound5 PropRound PropQuatDouble.
Import ListNotations.
Open Scope R_scope.

(** Quaternion(w, x, y, z) of finite doubles whose squares neither vanish nor overflow is fresh, and each component is within 14 half
    units of the exact one. *)
Theorem C65_make_double : forall (m : libm) (w x y z : spec_float), finite_double w -> finite_double x -> finite_double y -> finite_double z ->
  let h := mkH (real w) (real x) (real y) (real z) in bpow radix2 (-990) <= hnorm2 h <= bpow radix2 1022 ->
  let q := quat_make (H := B64 m) w x y z in
  dfresh_quat q /\ forall i, (i < 4)%nat -> Rabs (h4 (rq4 q) i - h4 (hdir h) i) <= 14 * half_ulp.
Proof.
  intros m w x y z Fw Fx Fy Fz h B q. apply fl_iff in Fw, Fx, Fy, Fz. rewrite half_big in B. destruct (make_ok m w x y z Fw Fx Fy Fz B) as [D C]. change (mkH (val w) (val x) (val y) (val z)) with h in C. split.
  - apply (fresh_of_close q (hdir h) 14); auto; [|lra]. apply dir_norm. pose proof low_pos. change (bpow radix2 (-990)) with low in B. lra.
  - destruct C as (A0 & A1 & A2 & A3). intros [|[|[|[|i]]]] Hi; auto.
Qed.
(** rotation(axis, angle) about a coordinate axis and about a vector, when the C library's sine and cosine of half the angle are right to
    within two half units: fresh, and each component within 2 and 18 half units. *)
Theorem C65_axis_double : forall (m : libm) (old : quat spec_float) (axis : Z) (angle : spec_float), (0 <= axis <= 2)%Z ->
  let half := ndiv (Num := B64 m) angle (n2 (H := B64 m)) in accurate_at m half ->
  let q := quat_axis (H := B64 m) old axis angle in
  let s (k : Z) := if (axis =? k)%Z then sin (real half) else 0 in
  dfresh_quat q /\ forall i, (i < 4)%nat -> Rabs (h4 (rq4 q) i - h4 (mkH (cos (real half)) (s 0%Z) (s 1%Z) (s 2%Z)) i) <= 2 * half_ulp.
Proof.
  intros m old axis angle Ha half Ac q s. destruct (axis_ok m old axis angle Ha Ac) as [D C]. split.
  - assert (Q : qvalid q = true /\ qage q = 1%N). { unfold q, quat_axis. destruct (Z.ltb_spec axis 0); [lia|]. destruct (Z.ltb_spec 2 axis); [lia|]. split; reflexivity. }
    apply (fresh_of_close q _ 2 D (proj1 Q) (proj2 Q)) in C; [exact C| |lra]. unfold hnorm2. cbn [hw hx hy hz]. pose proof (sin2_cos2 (real half)) as T. unfold Rsqr in T. fold half.
    assert (A : axis = 0%Z \/ axis = 1%Z \/ axis = 2%Z) by lia. destruct A as [->|[->| ->]]; cbn [Z.eqb Pos.eqb]; lra.
  - destruct C as (A0 & A1 & A2 & A3). intros [|[|[|[|i]]]] Hi; auto.
Qed.
Theorem C65_rotation_double : forall (m : libm) (old : quat spec_float) (axis : vector spec_float) (angle : spec_float), doubles 3 axis -> valid axis = true ->
  2 * lib_eps <= norm 3 (rco axis) -> norm2 3 (rco axis) <= bpow radix2 1022 ->
  let half := ndiv (Num := B64 m) angle (n2 (H := B64 m)) in accurate_at m half ->
  let q := quat_rotation (H := B64 m) old axis angle in
  let a i := rco axis i / norm 3 (rco axis) in let s := sin (real half) in
  dfresh_quat q /\ forall i, (i < 4)%nat -> Rabs (h4 (rq4 q) i - h4 (mkH (cos (real half)) (s * a 0%nat) (s * a 1%nat) (s * a 2%nat)) i) <= 18 * half_ulp.
Proof.
  intros m old axis angle Da Va Lo Hi half Ac q a s. rewrite half_big in Hi. rewrite <- epsR_lib in Lo. destruct (rotation_ok m old axis angle Da Lo Hi Ac) as (D & V & A & C). split.
  - apply (fresh_of_close q _ 18 D (eq_trans V Va) A) in C; [exact C| |lra]. unfold hnorm2. cbn [hw hx hy hz]. fold half. fold s. pose proof (sin2_cos2 (real half)) as T. unfold Rsqr in T. fold s in T.
    set (L := norm 3 (rco axis)) in *. assert (LL : L * L = norm2 3 (rco axis)) by apply norm_sqr. nums. rewrite epsR_u in Lo. assert (N : norm2 3 (rco axis) = rco axis 0 * rco axis 0 + rco axis 1 * rco axis 1 + rco axis 2 * rco axis 2) by (unfold norm2, inner; cbn [Rsum]; ring).
    transitivity (cos (real half) * cos (real half) + s * s * ((rco axis 0 * rco axis 0 + rco axis 1 * rco axis 1 + rco axis 2 * rco axis 2) / (L * L))); [field; lra|]. rewrite <- N, LL. unfold Rdiv. rewrite Rinv_r; [lra|]. rewrite <- LL. nra.
  - destruct C as (A0 & A1 & A2 & A3). intros [|[|[|[|i]]]] Hi4; auto.
Qed.

(** v.rotate(q): each coordinate is within 640 half units of the length of v of the exact rotation, plus what the length of q is off. *)
Theorem C68_rotate_quaternion : forall (m : libm) (q : quat spec_float) (v : vector spec_float), qdoubles q -> 0 < hnorm2 (rq4 q) <= 121 / 100 -> doubles 3 v -> norm 3 (rco v) <= bpow radix2 1000 ->
  doubles 3 (vec_rotate_q (H := B64 m) v q) /\
  forall i, (i < 3)%nat -> Rabs (rco (vec_rotate_q (H := B64 m) v q) i - hvec (sandwich (hdir (rq4 q)) (rco v)) i)
    <= 640 * (half_ulp * norm 3 (rco v) + half_tiny) + 2 * Rabs (hnorm2 (rq4 q) - 1) * norm 3 (rco v).
Proof.
  intros m q v Dq N Dv B. assert (B' : norm 3 (rco v) <= big / 100).
  { eapply Rle_trans; [exact B|]. unfold big. change 1023%Z with (1000 + 23)%Z. rewrite bpow_plus. pose proof (bpow_gt_0 radix2 1000). assert (100 <= bpow radix2 23) by (unfold bpow; change (Z.pow_pos radix2 23) with 8388608%Z; lra). nra. }
  split; [apply rotate_doubles; auto; lra|]. intros i Hi. exact (rotate_dir m q v i Dq N Dv B' Hi).
Qed.
(** The whole of it: after any number of moves with fresh operands the result turns v by the exact composite rotation to within 1400 half
    units of its length per move and 33000 more. *)
Theorem C65_turn_double_partial : forall (m : libm) p moves (v : vector spec_float), dfresh_quat p -> Forall dfresh_move moves -> doubles 3 v -> norm 3 (rco v) <= bpow radix2 1000 ->
  let q := fold_left (apply_dmove m) moves p in
  doubles 3 (vec_rotate_q (H := B64 m) v q) /\
  forall i, (i < 3)%nat -> Rabs (rco (vec_rotate_q (H := B64 m) v q) i - hvec (sandwich (fold_left ideal_move moves (hdir (rq4 p))) (rco v)) i)
    <= (1400 * INR (length moves) + 33000) * (half_ulp * norm 3 (rco v)) + 640 * half_tiny.
Proof.
  intros m p moves v Fp F Dv B q. destruct (C65_chain_double_partial m p moves Fp F) as (Dq & _ & Nq & Hq). fold q in Dq, Nq, Hq. nums. change half_ulp with u64 in *. pose proof (Rabs_le_inv _ _ Nq) as Nq'.
  destruct (C68_rotate_quaternion m q v Dq ltac:(lra) Dv B) as [Dr Er]. split; [exact Dr|]. intros i Hi. specialize (Er i Hi). change half_ulp with u64 in Er. set (S := norm 3 (rco v)) in *. assert (S0 : 0 <= S) by apply sqrt_pos.
  set (x := fold_left ideal_move moves (hdir (rq4 p))) in *.
  assert (Lx : hlen x = 1).
  { unfold x. assert (G : forall l y, Forall dfresh_move l -> hlen y = 1 -> hlen (fold_left ideal_move l y) = 1).
    { induction l as [|k l IH]; intros y Fl Y; [exact Y|]. inversion Fl as [|? ? Fk Fl']; subst. apply IH; auto. destruct k as [r|r| |]; cbn [ideal_move dfresh_move] in *; auto.
      - destruct Fk as (_ & _ & _ & Nr). change half_ulp with u64 in Nr. rewrite hlen_mul, hdir_len, Y; [ring|apply (pos_len _ _ Nr); lra].
      - destruct Fk as (_ & _ & _ & Nr). change half_ulp with u64 in Nr. rewrite hlen_mul, hlen_conj, hdir_len, Y; [ring|apply (pos_len _ _ Nr); lra].
      - now rewrite hlen_conj. }
    apply G; auto. apply hdir_len. destruct Fp as (_ & _ & _ & Np). change half_ulp with u64 in Np. apply (pos_len _ _ Np). lra. }
  assert (Ld : hlen (hdir (rq4 q)) = 1) by (apply hdir_len, (pos_len _ _ Nq); lra).
  pose proof (sandwich_lip (hdir (rq4 q)) x (rco v) Ld Lx) as Lip. fold S in Lip. pose proof (h4_len (hsub (sandwich (hdir (rq4 q)) (rco v)) (sandwich x (rco v))) (Datatypes.S i) ltac:(lia)) as Co. fold (hdist (sandwich (hdir (rq4 q)) (rco v)) (sandwich x (rco v))) in Co.
  assert (Eh : h4 (hsub (sandwich (hdir (rq4 q)) (rco v)) (sandwich x (rco v))) (Datatypes.S i) = hvec (sandwich (hdir (rq4 q)) (rco v)) i - hvec (sandwich x (rco v)) i) by (destruct i as [|[|[|i]]]; [reflexivity|reflexivity|reflexivity|lia]).
  rewrite Eh in Co. set (r := rco (vec_rotate_q (H := B64 m) v q) i) in *. set (a := hvec (sandwich (hdir (rq4 q)) (rco v)) i) in *. set (b := hvec (sandwich x (rco v)) i) in *.
  assert (K1 : 2 * Rabs (hnorm2 (rq4 q) - 1) * S <= 32000 * (u64 * S)) by (replace (32000 * (u64 * S)) with (2 * (16000 * u64) * S) by ring; apply Rmult_le_compat_r; lra).
  assert (K2 : 2 * hdist (hdir (rq4 q)) x * S <= 1400 * INR (length moves) * (u64 * S)) by (replace (1400 * INR (length moves) * (u64 * S)) with (2 * (700 * u64 * INR (length moves)) * S) by ring; apply Rmult_le_compat_r; lra).
  assert (US0 : 0 <= u64 * S) by (apply Rmult_le_pos; lra). pose proof (Rabs_triang (r - a) (a - b)) as T. replace (r - a + (a - b)) with (r - b) in T by ring. change half_tiny with eta64 in *. lra.
Qed.
Print Assumptions C65_make_double.
Print Assumptions C65_axis_double.
Print Assumptions C65_rotation_double.
Print Assumptions C68_rotate_quaternion.
Print Assumptions C65_turn_double_partial.

(** Non-vacuity: for every angle there is a libm that is right to within two half units at it; vectors and quaternions of small doubles. *)
Lemma some_double x : Rabs x <= 1 -> exists s, fl s /\ Rabs (val s - x) <= 2 * u64.
Proof.
  intros B. set (z := ZnearestE (x * bpow radix2 53)). pose proof (Znearest_half (fun n => negb (Z.even n)) (x * bpow radix2 53)) as Hz. fold z in Hz. set (y := IZR z * bpow radix2 (-53)).
  assert (P : bpow radix2 53 * bpow radix2 (-53) = 1) by (rewrite <- bpow_plus; reflexivity). nums. assert (Eu : bpow radix2 (-53) = u64) by reflexivity. rewrite Eu in *.
  assert (D : Rabs (y - x) <= / 2 * u64).
  { replace (y - x) with (- ((x * bpow radix2 53 - IZR z) * u64)) by (unfold y; rewrite Eu; transitivity (IZR z * u64 - x * (bpow radix2 53 * u64)); [ring|rewrite P; ring]).
    rewrite Rabs_Ropp, Rabs_mult, (Rabs_right u64) by lra. apply Rmult_le_compat_r; lra. }
  pose proof (rnd_err y) as Hr. pose proof (Rabs_triang (y - x) x) as T. replace (y - x + x) with y in T by ring. pose proof (Rabs_triang (rnd y - y) (y - x)) as T2. replace (rnd y - y + (y - x)) with (rnd y - x) in T2 by ring.
  pose proof (Rabs_triang (rnd y - x) x) as T3. replace (rnd y - x + x) with (rnd y) in T3 by ring.
  assert (U : u64 * Rabs y <= u64 * (1 + / 2 * u64)) by (apply Rmult_le_compat_l; lra). assert (UU : u64 * u64 <= u64 * / 1000) by (apply Rmult_le_compat_l; lra).
  assert (E3 : eta64 <= u64 / 1000) by (unfold eta64, u64; change (-1075)%Z with (-53 + -1022)%Z; rewrite bpow_plus; pose proof (bpow_gt_0 radix2 (-53)); assert (bpow radix2 (-1022) <= / 1000) by (apply Rle_trans with (bpow radix2 (-10)); [apply bpow_le; lia|unfold bpow; change (Z.pow_pos radix2 10) with 1024%Z; lra]); unfold Rdiv; apply Rmult_le_compat_l; lra).
  exists (SpecFloat.binary_normalize prec64 emax64 z (-53) false). rewrite binary_normalize_equiv.
  pose proof (binary_normalize_correct prec64 emax64 _ _ mode_NE z (-53) false) as C. cbn [round_mode] in C. assert (F : F2R (Float radix2 z (-53)) = y) by reflexivity. rewrite F in C. fold (rnd y) in C.
  rewrite Rlt_bool_true in C. 2:{ apply Rle_lt_trans with 2; [lra|]. apply Rlt_le_trans with (bpow radix2 2); [unfold bpow; change (Z.pow_pos radix2 2) with 4%Z; lra|apply bpow_le; unfold emax64; lia]. }
  destruct C as (C1 & C2 & _). split; [split; [apply double_B|unfold finite; rewrite <- C2; apply is_finite_SF_B2SF]|].
  unfold val. rewrite SF2R_B2SF, C1. lra.
Qed.
Lemma some_libm h : exists m : libm, accurate_at m h.
Proof.
  destruct (some_double (sin (real h))) as (s & Fs & Es); [apply Rabs_le; pose proof (SIN_bound (real h)); lra|].
  destruct (some_double (cos (real h))) as (c & Fc & Ec); [apply Rabs_le; pose proof (COS_bound (real h)); lra|].
  exists {| m_sin := fun _ => s; m_cos := fun _ => c; m_acos := fun x => x; m_atan2 := fun x _ => x; m_frexp_special := 0%Z |}.
  split; [apply fl_iff; exact Fs|split; [apply fl_iff; exact Fc|split; [exact Es|exact Ec]]].
Qed.
Lemma div_libm m m' (x y : spec_float) : ndiv (Num := B64 m) x y = ndiv (Num := B64 m') x y. Proof. reflexivity. Qed.
Lemma dfin k : match b64_ofZ k with S754_finite _ _ _ | S754_zero _ => True | _ => False end -> valid_binary prec64 emax64 (b64_ofZ k) = true -> finite_double (b64_ofZ k).
Proof. intros A B. split; [exact B|]. destruct (b64_ofZ k); auto. Qed.
Definition v349 : vector spec_float := mkC [b64_ofZ 3; b64_ofZ 4; b64_ofZ 9] true.
Lemma v349_doubles : doubles 3 v349.
Proof. split; [reflexivity|]. unfold v349. cbn [el]. repeat (constructor; [apply dfin; vm_compute; auto|]). constructor. Qed.
Ltac valZ k := change real with val; unfold val; set (e := b64_ofZ k); vm_compute in e; unfold e, SF2R, Defs.F2R; cbn [Defs.Fnum Defs.Fexp SpecFloat.cond_Zopp]; unfold bpow; simpl; lra.
Lemma r0 : real (b64_ofZ 0) = 0. Proof. reflexivity. Qed.
Lemma r3 : real (b64_ofZ 3) = 3. Proof. valZ 3%Z. Qed.
Lemma r4 : real (b64_ofZ 4) = 4. Proof. valZ 4%Z. Qed.
Lemma r9 : real (b64_ofZ 9) = 9. Proof. valZ 9%Z. Qed.
Lemma norm_349 : norm2 3 (rco v349) = 106.
Proof. unfold norm2, inner. cbn [Rsum]. change (rco v349 0) with (real (b64_ofZ 3)). change (rco v349 1) with (real (b64_ofZ 4)). change (rco v349 2) with (real (b64_ofZ 9)). rewrite r3, r4, r9. lra. Qed.
Lemma big_106 : 106 <= bpow radix2 1000.
Proof. apply Rle_trans with (bpow radix2 10); [unfold bpow; change (Z.pow_pos radix2 10) with 1024%Z; lra|apply bpow_le; lia]. Qed.
Lemma length_349 : 1 <= norm 3 (rco v349) <= 106.
Proof. pose proof (norm_sqr 3 (rco v349)) as Q. rewrite norm_349 in Q. assert (0 <= norm 3 (rco v349)) by apply sqrt_pos. nra. Qed.
Example C65_make_double_example : forall m : libm, finite_double (b64_ofZ 3) /\ finite_double (b64_ofZ 4) /\ finite_double (b64_ofZ 0) /\
  bpow radix2 (-990) <= hnorm2 (mkH (real (b64_ofZ 3)) (real (b64_ofZ 4)) (real (b64_ofZ 0)) (real (b64_ofZ 0))) <= bpow radix2 1022 /\ dfresh_quat (q34 m).
Proof.
  intros m. do 3 (split; [apply dfin; vm_compute; auto|]). split; [|apply C65_chain_double_example]. unfold hnorm2. cbn [hw hx hy hz]. rewrite r0, r3, r4. split.
  - apply Rle_trans with (bpow radix2 0); [apply bpow_le; lia|cbn; lra].
  - apply Rle_trans with (bpow radix2 1000); [pose proof big_106; lra|apply bpow_le; lia].
Qed.
Example C65_rotation_double_example : forall angle : spec_float, exists m : libm, accurate_at m (ndiv (Num := B64 m) angle (n2 (H := B64 m))) /\
  doubles 3 v349 /\ valid v349 = true /\ 2 * lib_eps <= norm 3 (rco v349) /\ norm2 3 (rco v349) <= bpow radix2 1022.
Proof.
  intros angle. set (m0 := {| m_sin := fun x => x; m_cos := fun x => x; m_acos := fun x => x; m_atan2 := fun x _ => x; m_frexp_special := 0%Z |}).
  destruct (some_libm (ndiv (Num := B64 m0) angle (n2 (H := B64 m0)))) as (m & A). exists m. split; [exact A|]. split; [exact v349_doubles|]. split; [reflexivity|]. split.
  - pose proof length_349. rewrite <- epsR_lib, epsR_u. nums. lra.
  - rewrite norm_349. apply Rle_trans with (bpow radix2 1000); [exact big_106|apply bpow_le; lia].
Qed.
Example C65_turn_double_example : forall m : libm, dfresh_quat (q34 m) /\ Forall dfresh_move [DTimes (q34 m); DInvert; DOver (q34 m); DNormalise] /\ doubles 3 v349 /\ norm 3 (rco v349) <= bpow radix2 1000.
Proof.
  intros m. destruct (C65_chain_double_example m) as (A & B & _). split; [exact A|]. split; [exact B|]. split; [exact v349_doubles|]. pose proof length_349. pose proof big_106. lra.
Qed.
