(** Rounding in products of quaternions: the product, the quotient and the normalisation. *)
From Coq Require Import ZArith NArith Reals Bool SpecFloat Lia Lra List Psatz.
From Flocq Require Import Core IEEE754.BinarySingleNaN.
From Verif Require Import Base Scalar OrdLib RLib B64Lib B64Ops FloatOps RoundLib RSpec ConstModel VecModel RotModel QuatModel VecSpec ConstSpec RoundSpec QuatSpec QuatRoundSpec
  RoundProofs RoundProofs2 RoundProofs3 RoundProofs4 RoundProofs5 QuatProofs DriftProofs QuatRound.
Import ListNotations.
Open Scope R_scope.

Definition hclose (a b : ham) (k : R) : Prop :=
  Rabs (hw a - hw b) <= k /\ Rabs (hx a - hx b) <= k /\ Rabs (hy a - hy b) <= k /\ Rabs (hz a - hz b) <= k.

Section B.
Variable m : libm.
Local Notation I := (B64 m).
Definition dmul (a q : quat spec_float) : quat spec_float :=
  mkQ (nsub (Num := I) (nmul (Num := I) (qw a) (qw q)) (dot (H := I) 3 (qv a) (qv q)))
      (vec_sub (H := I) 3 (vec_add (H := I) 3 (vec_scale (H := I) 3 (qv q) (qw a)) (vec_scale (H := I) 3 (qv a) (qw q))) (cross3 (H := I) (qv a) (qv q)))
      (qvalid a) (qage a).
Definition ddiv (a q : quat spec_float) : quat spec_float :=
  mkQ (nadd (Num := I) (nmul (Num := I) (qw a) (qw q)) (dot (H := I) 3 (qv a) (qv q)))
      (vec_add (H := I) 3 (vec_sub (H := I) 3 (vec_scale (H := I) 3 (qv a) (qw q)) (vec_scale (H := I) 3 (qv q) (qw a))) (cross3 (H := I) (qv a) (qv q)))
      (qvalid a) (qage a).

Lemma qfl q : qdoubles q -> fl (qw q) /\ forall i, (i < 3)%nat -> fl (nth i (el (qv q)) (S754_zero false)).
Proof. intros [F D]. split; [now apply fl_iff|]. intros i Hi. now apply (co_fl 3). Qed.
Lemma qsize q : hnorm2 (rq4 q) <= 121 / 100 -> Rabs (val (qw q)) <= 11 / 10 /\ norm2 3 (rco (qv q)) <= 121 / 100 /\ forall i, (i < 3)%nat -> Rabs (rco (qv q) i) <= 11 / 10.
Proof.
  unfold hnorm2, rq4. cbn [hw hx hy hz]. intros B. pose proof (Rle_0_sqr (real (qw q))) as W. unfold Rsqr in W.
  assert (N : norm2 3 (rco (qv q)) = rco (qv q) 0 * rco (qv q) 0 + rco (qv q) 1 * rco (qv q) 1 + rco (qv q) 2 * rco (qv q) 2) by (unfold norm2, inner; cbn [Rsum]; ring).
  pose proof (norm2_nonneg 3 (rco (qv q))). split; [change (val (qw q)) with (real (qw q)); apply Rabs_le; split; nra|].
  assert (N2 : norm2 3 (rco (qv q)) <= 121 / 100) by lra. split; auto. intros i Hi. now apply (small_co 3).
Qed.
Lemma mass a q : hnorm2 (rq4 a) <= 121 / 100 -> hnorm2 (rq4 q) <= 121 / 100 -> forall i, (i < 3)%nat ->
  Rabs (real (qw a) * real (qw q)) <= 121 / 100 /\ Rabs (real (qw a) * rco (qv q) i) <= 121 / 100 /\ Rabs (rco (qv a) i * real (qw q)) <= 121 / 100 /\
  Rabs (inner 3 (rco (qv a)) (rco (qv q))) <= 121 / 100 /\ Rabs (cross_coord (rco (qv a)) (rco (qv q)) i) <= 121 / 100.
Proof.
  intros Ha Hq i Hi. destruct (qsize a Ha) as (Wa & Na & Va). destruct (qsize q Hq) as (Wq & Nq & Vq). change (val (qw a)) with (real (qw a)) in Wa. change (val (qw q)) with (real (qw q)) in Wq.
  assert (P : forall x y, Rabs x <= 11 / 10 -> Rabs y <= 11 / 10 -> Rabs (x * y) <= 121 / 100). { intros x y X Y. rewrite Rabs_mult. replace (121 / 100) with (11 / 10 * (11 / 10)) by field. apply Rmult_le_compat; auto using Rabs_pos. }
  split; [auto|]. split; [auto|]. split; [auto|]. unfold norm2, inner in *. cbn [Rsum] in *.
  set (a0 := rco (qv a) 0) in *. set (a1 := rco (qv a) 1) in *. set (a2 := rco (qv a) 2) in *. set (q0 := rco (qv q) 0) in *. set (q1 := rco (qv q) 1) in *. set (q2 := rco (qv q) 2) in *.
  pose proof (Rle_0_sqr a0). pose proof (Rle_0_sqr a1). pose proof (Rle_0_sqr a2). pose proof (Rle_0_sqr q0). pose proof (Rle_0_sqr q1). pose proof (Rle_0_sqr q2). unfold Rsqr in *.
  pose proof (half_sq a0 q0). pose proof (half_sq a1 q1). pose proof (half_sq a2 q2).
  assert (D : forall x y, Rabs (x - y) <= Rabs x + Rabs y) by (intros x y; unfold Rminus; rewrite <- (Rabs_Ropp y); apply Rabs_triang).
  split.
  - eapply Rle_trans; [apply Rabs_triang|]. pose proof (Rabs_triang (0 + a0 * q0) (a1 * q1)). pose proof (Rabs_triang 0 (a0 * q0)) as T. rewrite Rabs_R0 in T. lra.
  - destruct i as [|[|[|i]]]; [| | |lia]; cbn [cross_coord]; fold a0 a1 a2 q0 q1 q2; (eapply Rle_trans; [apply D|]); match goal with |- Rabs (?x * ?y) + Rabs (?z * ?t) <= _ => pose proof (half_sq x y); pose proof (half_sq z t) end; lra.
Qed.

Lemma dmul_ok a q : qdoubles a -> qdoubles q -> hnorm2 (rq4 a) <= 121 / 100 -> hnorm2 (rq4 q) <= 121 / 100 ->
  qdoubles (dmul a q) /\ hclose (rq4 (dmul a q)) (hmul (rq4 q) (rq4 a)) (150 * u64).
Proof.
  intros Da Dq Ha Hq. nums. destruct (qfl a Da) as [Fa Fva]. destruct (qfl q Dq) as [Fq Fvq]. destruct (qsize a Ha) as (Wa & Na & Va). destruct (qsize q Hq) as (Wq & Nq & Vq).
  pose proof (mass a q Ha Hq) as M.
  assert (W : ap (qw (dmul a q)) (real (qw a) * real (qw q) - inner 3 (rco (qv a)) (rco (qv q))) (150 * u64)).
  { unfold dmul. cbn [qw nsub nmul B64]. destruct (M 0%nat ltac:(lia)) as (M1 & _ & _ & M2 & _).
    pose proof (ap_mul (qw a) (qw q) (real (qw a)) (real (qw q)) 0 0 (11 / 10) (11 / 10) (ap_exact _ Fa) (ap_exact _ Fq) ltac:(change (real (qw a)) with (val (qw a)); lra) ltac:(change (real (qw q)) with (val (qw q)); lra) ltac:(lra)) as P.
    pose proof (ap_dot m (qv a) (qv q) (proj2 Da) (proj2 Dq) Na Nq) as Q.
    eapply ap_le; [apply (ap_sub _ _ _ _ _ _ 3 P Q)|].
    - unfold Rminus. pose proof (Rabs_triang (real (qw a) * real (qw q)) (- inner 3 (rco (qv a)) (rco (qv q)))) as T. rewrite Rabs_Ropp in T. lra.
    - lra.
    - lra. }
  assert (V : forall i, (i < 3)%nat -> ap (nth i (el (qv (dmul a q))) (S754_zero false)) (real (qw a) * rco (qv q) i + rco (qv a) i * real (qw q) - cross_coord (rco (qv a)) (rco (qv q)) i) (150 * u64)).
  { intros i Hi. destruct (M i Hi) as (_ & M1 & M2 & _ & M3). unfold dmul. cbn [qv]. unfold vec_sub. cbn [el]. rewrite nth_tab by auto. unfold vec_add, vec_scale, at_. cbn [el]. unfold get. rewrite !nth_tab by auto. cbn [nsub nadd nmul B64].
    change (n0 (H := B64 m)) with (S754_zero false).
    pose proof (ap_mul _ _ (rco (qv q) i) (real (qw a)) 0 0 (11 / 10) (11 / 10) (ap_exact _ (Fvq i Hi)) (ap_exact _ Fa) ltac:(specialize (Vq i Hi); lra) ltac:(change (real (qw a)) with (val (qw a)); lra) ltac:(lra)) as P1.
    pose proof (ap_mul _ _ (rco (qv a) i) (real (qw q)) 0 0 (11 / 10) (11 / 10) (ap_exact _ (Fva i Hi)) (ap_exact _ Fq) ltac:(specialize (Va i Hi); lra) ltac:(change (real (qw q)) with (val (qw q)); lra) ltac:(lra)) as P2.
    destruct (ap_cross m (qv a) (qv q) i (proj2 Da) (proj2 Dq) Na Nq Hi) as [Dc C]. assert (P3 : ap (nth i (el (cross3 (H := I) (qv a) (qv q))) (S754_zero false)) (cross_coord (rco (qv a)) (rco (qv q)) i) (140 * u64)) by (split; [now apply (co_fl 3)|exact C]).
    rewrite (Rmult_comm (rco (qv q) i) (real (qw a))) in P1.
    assert (P4 := ap_add _ _ _ _ _ _ 3 P1 P2 ltac:(pose proof (Rabs_triang (real (qw a) * rco (qv q) i) (rco (qv a) i * real (qw q))); lra) ltac:(lra)).
    eapply ap_le; [apply (ap_sub _ _ _ _ _ _ 4 P4 P3)|].
    - unfold Rminus. pose proof (Rabs_triang (real (qw a) * rco (qv q) i + rco (qv a) i * real (qw q)) (- cross_coord (rco (qv a)) (rco (qv q)) i)) as T. rewrite Rabs_Ropp in T. pose proof (Rabs_triang (real (qw a) * rco (qv q) i) (rco (qv a) i * real (qw q))). lra.
    - lra.
    - lra. }
  split.
  - split; [apply fl_iff, W|]. split; [(unfold dims; apply tab_length)|]. rewrite Forall_forall. intros x X. apply (In_nth _ _ (S754_zero false)) in X. destruct X as (i & Hi & <-). apply fl_iff. apply V. unfold dmul in Hi. cbn [qv vec_sub el] in Hi. rewrite tab_length in Hi. exact Hi.
  - unfold hclose, hmul, rq4. cbn [hw hx hy hz]. split; [|split; [|split]].
    + destruct W as [_ W]. refine (Rle_trans _ _ _ (Req_le _ _ _) W). f_equal. change (real (qw (dmul a q))) with (val (qw (dmul a q))). unfold inner. cbn [Rsum]. ring.
    + destruct (V 0%nat ltac:(lia)) as [_ X]. refine (Rle_trans _ _ _ (Req_le _ _ _) X). f_equal. change (val (nth 0 (el (qv (dmul a q))) (S754_zero false))) with (rco (qv (dmul a q)) 0). cbn [cross_coord]. ring.
    + destruct (V 1%nat ltac:(lia)) as [_ X]. refine (Rle_trans _ _ _ (Req_le _ _ _) X). f_equal. change (val (nth 1 (el (qv (dmul a q))) (S754_zero false))) with (rco (qv (dmul a q)) 1). cbn [cross_coord]. ring.
    + destruct (V 2%nat ltac:(lia)) as [_ X]. refine (Rle_trans _ _ _ (Req_le _ _ _) X). f_equal. change (val (nth 2 (el (qv (dmul a q))) (S754_zero false))) with (rco (qv (dmul a q)) 2). cbn [cross_coord]. ring.
Qed.
Lemma ddiv_ok a q : qdoubles a -> qdoubles q -> hnorm2 (rq4 a) <= 121 / 100 -> hnorm2 (rq4 q) <= 121 / 100 ->
  qdoubles (ddiv a q) /\ hclose (rq4 (ddiv a q)) (hmul (hconj (rq4 q)) (rq4 a)) (150 * u64).
Proof.
  intros Da Dq Ha Hq. nums. destruct (qfl a Da) as [Fa Fva]. destruct (qfl q Dq) as [Fq Fvq]. destruct (qsize a Ha) as (Wa & Na & Va). destruct (qsize q Hq) as (Wq & Nq & Vq).
  pose proof (mass a q Ha Hq) as M.
  assert (W : ap (qw (ddiv a q)) (real (qw a) * real (qw q) + inner 3 (rco (qv a)) (rco (qv q))) (150 * u64)).
  { unfold ddiv. cbn [qw nadd nmul B64]. destruct (M 0%nat ltac:(lia)) as (M1 & _ & _ & M2 & _).
    pose proof (ap_mul (qw a) (qw q) (real (qw a)) (real (qw q)) 0 0 (11 / 10) (11 / 10) (ap_exact _ Fa) (ap_exact _ Fq) ltac:(change (real (qw a)) with (val (qw a)); lra) ltac:(change (real (qw q)) with (val (qw q)); lra) ltac:(lra)) as P.
    pose proof (ap_dot m (qv a) (qv q) (proj2 Da) (proj2 Dq) Na Nq) as Q.
    eapply ap_le; [apply (ap_add _ _ _ _ _ _ 3 P Q)|].
    - pose proof (Rabs_triang (real (qw a) * real (qw q)) (inner 3 (rco (qv a)) (rco (qv q)))) as T. lra.
    - lra.
    - lra. }
  assert (V : forall i, (i < 3)%nat -> ap (nth i (el (qv (ddiv a q))) (S754_zero false)) (rco (qv a) i * real (qw q) - real (qw a) * rco (qv q) i + cross_coord (rco (qv a)) (rco (qv q)) i) (150 * u64)).
  { intros i Hi. destruct (M i Hi) as (_ & M1 & M2 & _ & M3). unfold ddiv. cbn [qv]. unfold vec_add at 1. cbn [el]. rewrite nth_tab by auto. unfold vec_sub, vec_scale, at_. cbn [el]. unfold get. rewrite !nth_tab by auto. cbn [nsub nadd nmul B64].
    change (n0 (H := B64 m)) with (S754_zero false).
    pose proof (ap_mul _ _ (rco (qv q) i) (real (qw a)) 0 0 (11 / 10) (11 / 10) (ap_exact _ (Fvq i Hi)) (ap_exact _ Fa) ltac:(specialize (Vq i Hi); lra) ltac:(change (real (qw a)) with (val (qw a)); lra) ltac:(lra)) as P1.
    pose proof (ap_mul _ _ (rco (qv a) i) (real (qw q)) 0 0 (11 / 10) (11 / 10) (ap_exact _ (Fva i Hi)) (ap_exact _ Fq) ltac:(specialize (Va i Hi); lra) ltac:(change (real (qw q)) with (val (qw q)); lra) ltac:(lra)) as P2.
    destruct (ap_cross m (qv a) (qv q) i (proj2 Da) (proj2 Dq) Na Nq Hi) as [Dc C]. assert (P3 : ap (nth i (el (cross3 (H := I) (qv a) (qv q))) (S754_zero false)) (cross_coord (rco (qv a)) (rco (qv q)) i) (140 * u64)) by (split; [now apply (co_fl 3)|exact C]).
    rewrite (Rmult_comm (rco (qv q) i) (real (qw a))) in P1.
    assert (T0 : Rabs (rco (qv a) i * real (qw q) - real (qw a) * rco (qv q) i) <= 242 / 100).
    { unfold Rminus. pose proof (Rabs_triang (rco (qv a) i * real (qw q)) (- (real (qw a) * rco (qv q) i))) as T. rewrite Rabs_Ropp in T. lra. }
    assert (P4 := ap_sub _ _ _ _ _ _ 3 P2 P1 ltac:(lra) ltac:(lra)).
    eapply ap_le; [apply (ap_add _ _ _ _ _ _ 4 P4 P3)|].
    - pose proof (Rabs_triang (rco (qv a) i * real (qw q) - real (qw a) * rco (qv q) i) (cross_coord (rco (qv a)) (rco (qv q)) i)) as T. lra.
    - lra.
    - lra. }
  split.
  - split; [apply fl_iff, W|]. split; [(unfold dims; apply tab_length)|]. rewrite Forall_forall. intros x X. apply (In_nth _ _ (S754_zero false)) in X. destruct X as (i & Hi & <-). apply fl_iff. apply V. unfold ddiv in Hi. cbn [qv vec_add el] in Hi. rewrite tab_length in Hi. exact Hi.
  - unfold hclose, hmul, hconj, rq4. cbn [hw hx hy hz]. split; [|split; [|split]].
    + destruct W as [_ W]. refine (Rle_trans _ _ _ (Req_le _ _ _) W). f_equal. change (real (qw (ddiv a q))) with (val (qw (ddiv a q))). unfold inner. cbn [Rsum]. ring.
    + destruct (V 0%nat ltac:(lia)) as [_ X]. refine (Rle_trans _ _ _ (Req_le _ _ _) X). f_equal. change (val (nth 0 (el (qv (ddiv a q))) (S754_zero false))) with (rco (qv (ddiv a q)) 0). cbn [cross_coord]. ring.
    + destruct (V 1%nat ltac:(lia)) as [_ X]. refine (Rle_trans _ _ _ (Req_le _ _ _) X). f_equal. change (val (nth 1 (el (qv (ddiv a q))) (S754_zero false))) with (rco (qv (ddiv a q)) 1). cbn [cross_coord]. ring.
    + destruct (V 2%nat ltac:(lia)) as [_ X]. refine (Rle_trans _ _ _ (Req_le _ _ _) X). f_equal. change (val (nth 2 (el (qv (ddiv a q))) (S754_zero false))) with (rco (qv (ddiv a q)) 2). cbn [cross_coord]. ring.
Qed.

(** Normalisation: division by (n + 1) / 2, n the squared length. *)
Lemma one_ok : fl (n1 (H := B64 m)) /\ val (n1 (H := B64 m)) = 1.
Proof. split; [split; reflexivity|]. unfold n1. cbn [nofZ B64]. unfold val, SF2R. vm_compute (b64_ofZ 1). unfold Defs.F2R. cbn [Defs.Fnum Defs.Fexp]. unfold bpow. cbn [cond_Zopp]. change (Z.pow_pos radix2 52) with 4503599627370496%Z. lra. Qed.
Lemma two_ok : fl (n2 (H := B64 m)) /\ val (n2 (H := B64 m)) = 2.
Proof. split; [split; reflexivity|]. unfold n2. cbn [nofZ B64]. unfold val, SF2R. vm_compute (b64_ofZ 2). unfold Defs.F2R. cbn [Defs.Fnum Defs.Fexp]. unfold bpow. cbn [cond_Zopp]. change (Z.pow_pos radix2 51) with 2251799813685248%Z. lra. Qed.
Lemma norm_ok q : qdoubles q -> 9 / 10 <= hnorm2 (rq4 q) <= 11 / 10 ->
  qdoubles (quat_normalize (H := I) q) /\ hclose (rq4 (quat_normalize (H := I) q)) (hscal (2 / (hnorm2 (rq4 q) + 1)) (rq4 q)) (15 * u64).
Proof.
  intros D B. nums. destruct (qfl q D) as [F Fv]. destruct (qsize q ltac:(lra)) as (W & N & V). set (n := hnorm2 (rq4 q)) in *.
  assert (En : n = real (qw q) * real (qw q) + norm2 3 (rco (qv q))) by (unfold n, hnorm2, rq4, norm2, inner; cbn [hw hx hy hz Rsum]; ring).
  pose proof (norm2_nonneg 3 (rco (qv q))) as N0. pose proof (Rle_0_sqr (real (qw q))) as W0. unfold Rsqr in W0.
  destruct (sqr_mag_ok m 3 (qv q) ltac:(lia) (proj2 D) ltac:(lra)) as (Fs & _ & Es). replace (INR 3) with 3 in Es by (simpl; lra).
  assert (Ps : ap (sqr_mag (H := I) 3 (qv q)) (norm2 3 (rco (qv q))) (6 * u64)).
  { split; auto. eapply Rle_trans; [exact Es|]. assert (u64 * norm2 3 (rco (qv q)) <= u64 * (11 / 10)) by (apply Rmult_le_compat_l; lra). lra. }
  pose proof (ap_mul (qw q) (qw q) (real (qw q)) (real (qw q)) 0 0 (11 / 10) (11 / 10) (ap_exact _ F) (ap_exact _ F) ltac:(change (real (qw q)) with (val (qw q)); lra) ltac:(change (real (qw q)) with (val (qw q)); lra) ltac:(lra)) as Pw.
  pose proof (ap_add _ _ _ _ _ _ 2 Pw Ps ltac:(rewrite Rabs_pos_eq; lra) ltac:(lra)) as P1. rewrite <- En in P1.
  destruct one_ok as [F1 V1]. pose proof (ap_exact _ F1) as X1. rewrite V1 in X1.
  pose proof (ap_add _ _ _ _ _ _ 3 P1 X1 ltac:(rewrite Rabs_pos_eq; lra) ltac:(lra)) as P2.
  destruct two_ok as [F2 V2]. pose proof (ap_exact _ F2) as X2. rewrite V2 in X2.
  assert (P3 : ap (ndiv (Num := I) (nadd (Num := I) (nadd (Num := I) (nmul (Num := I) (qw q) (qw q)) (sqr_mag (H := I) 3 (qv q))) (n1 (H := I))) (n2 (H := I))) ((n + 1) / 2) (9 * u64)).
  { cbn [ndiv nadd nmul B64]. eapply ap_le; [apply (ap_div _ _ _ _ _ _ 2 3 2 P2 X2)|]; try (rewrite Rabs_pos_eq; lra); try lra. }
  assert (E2 : forall x, x / ((n + 1) / 2) = 2 / (n + 1) * x) by (intros x; field; lra).
  assert (I2 : 0 < 2 / (n + 1) <= 20 / 19). { split; [apply Rdiv_lt_0_compat; lra|]. apply Rmult_le_reg_r with (n + 1); [lra|]. unfold Rdiv. rewrite Rmult_assoc, Rinv_l by lra. lra. }
  assert (Dv : forall x, fl x -> Rabs (val x) <= 11 / 10 -> ap (SFdiv prec64 emax64 x (ndiv (Num := I) (nadd (Num := I) (nadd (Num := I) (nmul (Num := I) (qw q) (qw q)) (sqr_mag (H := I) 3 (qv q))) (n1 (H := I))) (n2 (H := I)))) (2 / (n + 1) * val x) (15 * u64)).
  { intros x Fx Bx. rewrite <- E2. eapply ap_le; [apply (ap_div _ _ _ _ _ _ (94 / 100) (11 / 10) (13 / 10) (ap_exact _ Fx) P3 Bx)|]; try lra.
    rewrite E2, Rabs_mult, (Rabs_pos_eq (2 / (n + 1))) by lra. pose proof (Rabs_pos (val x)). assert (2 / (n + 1) * Rabs (val x) <= 20 / 19 * (11 / 10)) by (apply Rmult_le_compat; lra). lra. }
  assert (Vd : forall i, (i < 3)%nat -> ap (nth i (el (qv (quat_normalize (H := I) q))) (S754_zero false)) (2 / (n + 1) * rco (qv q) i) (15 * u64)).
  { intros i Hi. unfold quat_normalize. cbn [qv]. unfold vec_div. cbn [el]. rewrite nth_tab by auto. unfold at_ at 1, get. change (n0 (H := B64 m)) with (S754_zero false). cbn [ndiv B64]. apply Dv; auto. now apply V. }
  assert (Wd : ap (qw (quat_normalize (H := I) q)) (2 / (n + 1) * real (qw q)) (15 * u64)) by (apply Dv; auto).
  split.
  - split; [apply fl_iff, Wd|]. split; [(unfold dims; apply tab_length)|]. rewrite Forall_forall. intros x X. apply (In_nth _ _ (S754_zero false)) in X. destruct X as (i & Hi & <-). apply fl_iff. apply Vd. unfold quat_normalize in Hi. cbn [qv vec_div el] in Hi. rewrite tab_length in Hi. exact Hi.
  - unfold hclose, hscal, rq4. cbn [hw hx hy hz]. split; [apply Wd|]. split; [apply (Vd 0%nat); lia|]. split; [apply (Vd 1%nat); lia|apply (Vd 2%nat); lia].
Qed.
Lemma inverse_ok q : qdoubles q -> qdoubles (quat_inverse (H := I) q) /\ rq4 (quat_inverse (H := I) q) = hconj (rq4 q).
Proof.
  intros [F D]. destruct (neg_exact m 3 (qv q) D) as [D' E]. split; [now split|]. unfold rq4, hconj, quat_inverse. cbn [qw qv hw hx hy hz]. now rewrite !E by lia.
Qed.
End B.
