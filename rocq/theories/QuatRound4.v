(** Rounding when a vector is rotated by a quaternion. *)
From Coq Require Import ZArith NArith Reals Bool SpecFloat Lia Lra List Psatz.
From Flocq Require Import Core IEEE754.BinarySingleNaN.
From Verif Require Import Base Scalar OrdLib RLib B64Lib B64Ops FloatOps RoundLib RSpec ConstModel VecModel RotModel QuatModel VecSpec ConstSpec RoundSpec QuatSpec QuatRoundSpec
  RoundProofs RoundProofs2 RoundProofs3 RoundProofs4 RoundProofs5 VecProofs QuatProofs DriftProofs QuatRound QuatRound2 QuatRound3.
Import ListNotations.
Open Scope R_scope.

Section B.
Variable m : libm.
Local Notation I := (B64 m).
Lemma co_norm (v : nat -> R) i : (i < 3)%nat -> Rabs (v i) <= norm 3 v.
Proof.
  intros Hi. unfold norm. rewrite <- sqrt_Rsqr_abs. apply sqrt_le_1_alt. unfold Rsqr. apply (Rsum_term_le 3 (fun i => v i * v i)); auto. intros; apply Rle_0_sqr.
Qed.
Lemma sqrt_11 N : N <= 121 / 100 -> sqrt N <= 11 / 10.
Proof. intros H. replace (11 / 10) with (sqrt (121 / 100)); [now apply sqrt_le_1_alt|]. replace (121 / 100) with (11 / 10 * (11 / 10)) by field. apply sqrt_square. lra. Qed.
Lemma abs_mass a b : norm2 3 a <= 121 / 100 -> Rsum 3 (fun i => Rabs (a i * b i)) <= 11 / 10 * norm 3 b.
Proof.
  intros Ha. assert (E : forall c, norm 3 (fun i => Rabs (c i)) = norm 3 c). { intros c. unfold norm, norm2, inner. f_equal. cbn [Rsum]. rewrite <- !Rabs_mult, !Rabs_pos_eq by nra. reflexivity. }
  pose proof (Rabs_inner_le_norm 3 (fun i => Rabs (a i)) (fun i => Rabs (b i))) as C. rewrite !E in C. pose proof (Rle_abs (inner 3 (fun i => Rabs (a i)) (fun i => Rabs (b i)))) as L.
  assert (Q : Rsum 3 (fun i => Rabs (a i * b i)) = inner 3 (fun i => Rabs (a i)) (fun i => Rabs (b i))) by (unfold inner; cbn [Rsum]; now rewrite !Rabs_mult).
  rewrite Q. pose proof (sqrt_11 _ Ha) as S. fold (norm 3 a) in S. assert (0 <= norm 3 b) by apply sqrt_pos. assert (norm 3 a * norm 3 b <= 11 / 10 * norm 3 b) by (apply Rmult_le_compat_r; lra). lra.
Qed.
Section Rot.
Variables (q : quat spec_float) (v : vector spec_float).
Hypothesis Dq : qdoubles q.
Hypothesis Nq : hnorm2 (rq4 q) <= 121 / 100.
Hypothesis Dv : doubles 3 v.
Let S := norm 3 (rco v).
Hypothesis Sv : S <= big / 100.
Let T := u64 * S + eta64.
Lemma S_nonneg : 0 <= S. Proof. apply sqrt_pos. Qed.
Lemma T_facts : 0 <= S /\ 0 <= u64 * S <= S * / 1000000000000000 /\ 0 < T /\ u64 * S + eta64 = T /\ 0 <= u64 * T <= T * / 1000000000000000 /\ T <= S * / 1000000000000000 + / 1000.
Proof.
  nums. pose proof S_nonneg as S0. assert (A : u64 * S <= S * / 1000000000000000) by (rewrite Rmult_comm; apply Rmult_le_compat_l; lra).
  assert (A0 : 0 <= u64 * S) by (apply Rmult_le_pos; lra). assert (T0 : 0 < T) by (unfold T; lra). split; [auto|]. split; [lra|]. split; [auto|]. split; [reflexivity|]. split.
  - split; [apply Rmult_le_pos; lra|]. rewrite Rmult_comm. apply Rmult_le_compat_l; lra.
  - unfold T. lra.
Qed.
Lemma clamp_v : 2 * epsR * (1 + u64) * Rmin (11 / 10) S + eta64 <= 121 * (u64 * S) + eta64.
Proof.
  nums. destruct T_facts as (S0 & U & _). rewrite epsR_u. assert (Mn : 0 <= Rmin (11 / 10) S <= S) by (split; [apply Rmin_glb; lra|apply Rmin_r]).
  assert (u64 * Rmin (11 / 10) S <= u64 * S) by (apply Rmult_le_compat_l; lra). assert (0 <= u64 * Rmin (11 / 10) S) by (apply Rmult_le_pos; lra).
  assert (u64 * (u64 * Rmin (11 / 10) S) <= / 1000000000000000 * (u64 * S)) by (apply Rmult_le_compat; lra).
  replace (2 * (60 * u64) * (1 + u64) * Rmin (11 / 10) S) with (120 * (u64 * Rmin (11 / 10) S) + 120 * (u64 * (u64 * Rmin (11 / 10) S))) by ring. lra.
Qed.
Lemma ap_dot_v : ap (dot (H := I) 3 (qv q) v) (inner 3 (rco (qv q)) (rco v)) (127 * T).
Proof.
  nums. destruct T_facts as (S0 & U & T0 & TE & _). destruct (qsize q Nq) as (_ & N & V). pose proof (abs_mass (rco (qv q)) (rco v) N) as MS. fold S in MS.
  destruct (dot_ok m 3 (qv q) v ltac:(lia) (proj2 Dq) Dv ltac:(lra)) as (F & s & Es & Cs). split; auto. replace (INR 3) with 3 in Es by (simpl; lra).
  assert (K : Rabs (s - inner 3 (rco (qv q)) (rco v)) <= 11 / 2 * (u64 * S) + 6 * eta64).
  { eapply Rle_trans; [exact Es|]. assert (u64 * Rsum 3 (fun i => Rabs (rco (qv q) i * rco v i)) <= u64 * (11 / 10 * S)) by (apply Rmult_le_compat_l; lra). lra. }
  refine (Rle_trans _ _ _ (clamped s (val (dot (H := I) 3 (qv q) v)) _ _ (121 * (u64 * S) + eta64) K _ _) _); [|lra|lra].
  destruct Cs as [E|[E C]]; [now left|right]. split; auto. eapply Rle_trans; [apply (C (11 / 10) S)|apply clamp_v]; intros; [now apply V|now apply co_norm].
Qed.
Lemma cross_mass_v i : (i < 3)%nat -> cross_mass (rco (qv q)) (rco v) i <= 22 / 10 * S /\ Rabs (cross_coord (rco (qv q)) (rco v) i) <= 22 / 10 * S.
Proof.
  intros Hi. destruct (qsize q Nq) as (_ & N & V). pose proof S_nonneg as S0.
  assert (P : forall j k, (j < 3)%nat -> (k < 3)%nat -> Rabs (rco (qv q) j * rco v k) <= 11 / 10 * S). { intros j k Hj Hk. rewrite Rabs_mult. apply Rmult_le_compat; auto using Rabs_pos. now apply co_norm. }
  assert (D : forall x y, Rabs (x - y) <= Rabs x + Rabs y) by (intros x y; unfold Rminus; rewrite <- (Rabs_Ropp y); apply Rabs_triang).
  assert (P' : forall j k, (j < 3)%nat -> (k < 3)%nat -> Rabs (rco v k * rco (qv q) j) <= 11 / 10 * S) by (intros; rewrite Rmult_comm; auto).
  destruct i as [|[|[|i]]]; [| | |lia]; cbn [cross_mass cross_coord]; (split; [|eapply Rle_trans; [apply D|]]);
   (match goal with |- Rabs (rco ?a ?j * rco ?b ?k) + Rabs (rco ?c ?l * rco ?d ?n) <= _ =>
     assert (Rabs (rco a j * rco b k) <= 11 / 10 * S) by (apply P || apply P'; lia); assert (Rabs (rco c l * rco d n) <= 11 / 10 * S) by (apply P || apply P'; lia) end; lra).
Qed.
Lemma ap_cross_v i : (i < 3)%nat -> ap (nth i (el (cross3 (H := I) (qv q) v)) (S754_zero false)) (cross_coord (rco (qv q)) (rco v) i) (128 * T).
Proof.
  intros Hi. nums. destruct T_facts as (S0 & U & T0 & TE & _). destruct (qsize q Nq) as (_ & N & V).
  destruct (cross3_ok m (qv q) v (proj2 Dq) Dv) as [D Ec]; [intros j Hj; destruct (cross_mass_v j Hj); lra|]. split; [now apply (co_fl 3)|]. destruct (Ec i Hi) as (s & Es & Cs). destruct (cross_mass_v i Hi) as [MS _].
  assert (K : Rabs (s - cross_coord (rco (qv q)) (rco v) i) <= 66 / 10 * (u64 * S) + 3 * eta64).
  { eapply Rle_trans; [exact Es|]. assert (u64 * cross_mass (rco (qv q)) (rco v) i <= u64 * (22 / 10 * S)) by (apply Rmult_le_compat_l; lra). lra. }
  refine (Rle_trans _ _ _ (clamped s (rco (cross3 (H := I) (qv q) v) i) _ _ (121 * (u64 * S) + eta64) K _ _) _); [|lra|lra].
  destruct Cs as [E|[E C]]; [now left|right]. split; auto. eapply Rle_trans; [apply (C (11 / 10) S)|apply clamp_v]; intros; [now apply V|now apply co_norm].
Qed.
(** What the code computes, without rounding. *)
Definition rot_exact (w : R) (a b : nat -> R) (i : nat) : R := (2 * w * w - 1) * b i + 2 * a i * inner 3 a b + 2 * w * cross_coord a b i.
Lemma rotate_ok i : (i < 3)%nat -> ap (nth i (el (vec_rotate_q (H := I) v q)) (S754_zero false)) (rot_exact (real (qw q)) (rco (qv q)) (rco v) i) (640 * T).
Proof.
  intros Hi. nums. destruct T_facts as (S0 & U & T0 & TE & UT & TS). destruct (qfl q Dq) as [Fw Fv]. destruct (qsize q Nq) as (W & N & V). change (val (qw q)) with (real (qw q)) in W. specialize (V i Hi).
  assert (Fvi : fl (nth i (el v) (S754_zero false))) by now apply (co_fl 3). pose proof (co_norm (rco v) i Hi) as Vi. fold S in Vi.
  destruct (two_ok m) as [F2 V2]. destruct (one_ok m) as [F1 V1]. pose proof (ap_exact _ F1) as X1. rewrite V1 in X1. pose proof (ap_exact _ F2) as X2. rewrite V2 in X2. pose proof (ap_exact _ Fw : ap (qw q) (real (qw q)) 0) as Xw.
  pose proof (ap_exact _ (Fv i Hi) : ap _ (rco (qv q) i) 0) as Xq. pose proof (ap_exact _ Fvi : ap _ (rco v i) 0) as Xv.
  set (w := real (qw q)) in *. set (qi := rco (qv q) i) in *. set (vi := rco v i) in *.
  assert (A2 : Rabs 2 = 2) by (apply Rabs_pos_eq; lra). assert (A1 : Rabs 1 = 1) by (apply Rabs_pos_eq; lra).
  assert (W2 : ap (SFmul prec64 emax64 (n2 (H := I)) (qw q)) (2 * w) (23 / 10 * u64)).
  { eapply ap_le; [apply (ap_mul _ _ _ _ _ _ 2 (11 / 10) X2 Xw)|]; lra. }
  assert (B2 : Rabs (2 * w) <= 22 / 10) by (rewrite Rabs_mult, A2; lra).
  assert (W3 : ap (SFmul prec64 emax64 (SFmul prec64 emax64 (n2 (H := I)) (qw q)) (qw q)) (2 * w * w) (53 / 10 * u64)).
  { eapply ap_le; [apply (ap_mul _ _ _ _ _ _ (23 / 10) (11 / 10) W2 Xw)|]; lra. }
  assert (Bw : -1 <= 2 * w * w - 1 <= 142 / 100). { apply Rabs_le_inv in W. nra. }
  assert (B3 : Rabs (2 * w * w - 1) <= 142 / 100) by (apply Rabs_le; lra).
  assert (W4 : ap (SFsub prec64 emax64 (SFmul prec64 emax64 (SFmul prec64 emax64 (n2 (H := I)) (qw q)) (qw q)) (n1 (H := I))) (2 * w * w - 1) (7 * u64)).
  { eapply ap_le; [apply (ap_sub _ _ _ _ _ _ (15 / 10) W3 X1)|]; lra. }
  assert (T1 : ap (SFmul prec64 emax64 (nth i (el v) (S754_zero false)) (SFsub prec64 emax64 (SFmul prec64 emax64 (SFmul prec64 emax64 (n2 (H := I)) (qw q)) (qw q)) (n1 (H := I)))) (vi * (2 * w * w - 1)) (9 * T)).
  { eapply ap_le; [apply (ap_mul _ _ _ _ _ _ S (15 / 10) Xv W4)|]; lra. }
  assert (Q2 : ap (SFmul prec64 emax64 (nth i (el (qv q)) (S754_zero false)) (n2 (H := I))) (qi * 2) (23 / 10 * u64)).
  { eapply ap_le; [apply (ap_mul _ _ _ _ _ _ (11 / 10) 2 Xq X2)|]; lra. }
  assert (Bq : Rabs (qi * 2) <= 22 / 10) by (rewrite Rabs_mult, A2; lra).
  assert (Bd : Rabs (inner 3 (rco (qv q)) (rco v)) <= 11 / 10 * S).
  { eapply Rle_trans; [|apply (abs_mass (rco (qv q)) (rco v) N)]. unfold inner. cbn [Rsum]. set (x := rco (qv q) 0 * rco v 0). set (y := rco (qv q) 1 * rco v 1). set (z := rco (qv q) 2 * rco v 2).
    pose proof (Rabs_triang (0 + x + y) z). pose proof (Rabs_triang (0 + x) y). replace (0 + x) with x in * by ring. lra. }
  set (D := 11 / 10 * S + 127 * T). assert (UD : u64 * D = 11 / 10 * (u64 * S) + 127 * (u64 * T)) by (unfold D; ring).
  assert (T2 : ap (SFmul prec64 emax64 (SFmul prec64 emax64 (nth i (el (qv q)) (S754_zero false)) (n2 (H := I))) (dot (H := I) 3 (qv q) v)) (qi * 2 * inner 3 (rco (qv q)) (rco v)) (300 * T)).
  { eapply ap_le; [apply (ap_mul _ _ _ _ _ _ (23 / 10) D Q2 ap_dot_v)|]; [lra|unfold D; lra|unfold D; lra|]. replace (23 / 10 * u64 * D) with (23 / 10 * (u64 * D)) by ring. replace (u64 * (23 / 10 * D)) with (23 / 10 * (u64 * D)) by ring. rewrite UD. lra. }
  assert (P1 : Rabs (vi * (2 * w * w - 1)) <= 142 / 100 * S). { rewrite Rabs_mult, Rmult_comm. apply Rmult_le_compat; auto using Rabs_pos. }
  assert (P2 : Rabs (qi * 2 * inner 3 (rco (qv q)) (rco v)) <= 242 / 100 * S). { rewrite Rabs_mult. replace (242 / 100 * S) with (22 / 10 * (11 / 10 * S)) by field. apply Rmult_le_compat; auto using Rabs_pos. }
  pose proof (Rabs_triang (vi * (2 * w * w - 1)) (qi * 2 * inner 3 (rco (qv q)) (rco v))) as P12.
  set (M1 := 4 * S + 309 * T). assert (UM1 : u64 * M1 = 4 * (u64 * S) + 309 * (u64 * T)) by (unfold M1; ring).
  assert (S1 : ap (SFadd prec64 emax64 (SFmul prec64 emax64 (nth i (el v) (S754_zero false)) (SFsub prec64 emax64 (SFmul prec64 emax64 (SFmul prec64 emax64 (n2 (H := I)) (qw q)) (qw q)) (n1 (H := I))))
      (SFmul prec64 emax64 (SFmul prec64 emax64 (nth i (el (qv q)) (S754_zero false)) (n2 (H := I))) (dot (H := I) 3 (qv q) v))) (vi * (2 * w * w - 1) + qi * 2 * inner 3 (rco (qv q)) (rco v)) (315 * T)).
  { eapply ap_le; [apply (ap_add _ _ _ _ _ _ M1 T1 T2)|]; [unfold M1; lra|unfold M1; lra|]. rewrite UM1. lra. }
  destruct (cross_mass_v i Hi) as [_ Bc]. set (C := 22 / 10 * S + 128 * T). assert (UC : u64 * C = 22 / 10 * (u64 * S) + 128 * (u64 * T)) by (unfold C; ring).
  assert (T3 : ap (SFmul prec64 emax64 (nth i (el (cross3 (H := I) (qv q) v)) (S754_zero false)) (SFmul prec64 emax64 (n2 (H := I)) (qw q))) (cross_coord (rco (qv q)) (rco v) i * (2 * w)) (307 * T)).
  { eapply ap_le; [apply (ap_mul _ _ _ _ _ _ C (23 / 10) (ap_cross_v i Hi) W2)|]; [unfold C; lra|lra|unfold C; lra|]. replace (C * (23 / 10 * u64)) with (23 / 10 * (u64 * C)) by ring. replace (u64 * (C * (23 / 10))) with (23 / 10 * (u64 * C)) by ring. rewrite UC. lra. }
  assert (P3 : Rabs (cross_coord (rco (qv q)) (rco v) i * (2 * w)) <= 484 / 100 * S). { rewrite Rabs_mult. replace (484 / 100 * S) with (22 / 10 * S * (22 / 10)) by field. apply Rmult_le_compat; auto using Rabs_pos. }
  set (M2 := 9 * S + 622 * T). assert (UM2 : u64 * M2 = 9 * (u64 * S) + 622 * (u64 * T)) by (unfold M2; ring).
  pose proof (Rabs_triang (vi * (2 * w * w - 1) + qi * 2 * inner 3 (rco (qv q)) (rco v)) (cross_coord (rco (qv q)) (rco v) i * (2 * w))) as P123.
  unfold vec_rotate_q. unfold vec_add at 1. cbn [el]. rewrite nth_tab by auto. unfold vec_add, vec_scale, at_. cbn [el]. unfold get. rewrite !nth_tab by auto. cbn [nsub nadd nmul B64]. change (n0 (H := B64 m)) with (S754_zero false).
  eapply ap_eq; [|eapply ap_le; [apply (ap_add _ _ _ _ _ _ M2 S1 T3)|]]; [unfold rot_exact; fold w qi vi; ring|unfold M2; lra|unfold M2; lra|]. rewrite UM2. lra.
Qed.
Lemma rotate_doubles : doubles 3 (vec_rotate_q (H := I) v q).
Proof.
  split; [unfold dims; apply tab_length|]. rewrite Forall_forall. intros x X. apply (In_nth _ _ (S754_zero false)) in X. destruct X as (i & Hi & <-). apply fl_iff. apply rotate_ok. unfold vec_rotate_q in Hi. cbn [vec_add el] in Hi. rewrite tab_length in Hi. exact Hi.
Qed.
End Rot.

(** ** The exact rotation *)
Lemma sandwich_co (a : ham) v i : (i < 3)%nat ->
  rot_exact (hw a) (fun j => h4 a (Datatypes.S j)) v i = hvec (sandwich a v) i + (hnorm2 a - 1) * v i.
Proof.
  intros Hi. unfold rot_exact, inner. cbn [Rsum]. destruct a as [w x y z]. destruct i as [|[|[|i]]]; [| | |lia]; unfold hvec, sandwich, hmul, hconj, pure, hnorm2; cbn [h4 cross_coord hw hx hy hz]; ring.
Qed.
Lemma sandwich_scal k a v : sandwich (hscal k a) v = hscal (k * k) (sandwich a v).
Proof. unfold sandwich, hscal, hmul, hconj, pure. cbn [hw hx hy hz]. f_equal; ring. Qed.
Lemma pure_len v : hlen (pure v) = norm 3 v.
Proof. unfold hlen, norm. f_equal. unfold hnorm2, pure, norm2, inner. cbn [hw hx hy hz Rsum]. ring. Qed.
Lemma sandwich_len a v : hlen (sandwich a v) = hnorm2 a * norm 3 v.
Proof. unfold sandwich. rewrite !hlen_mul, hlen_conj, pure_len. rewrite <- (hlen_sqr a). ring. Qed.
Lemma h4_len a i : (i < 4)%nat -> Rabs (h4 a i) <= hlen a.
Proof.
  intros Hi. unfold hlen. rewrite <- sqrt_Rsqr_abs. apply sqrt_le_1_alt. unfold Rsqr, hnorm2. pose proof (Rle_0_sqr (hw a)). pose proof (Rle_0_sqr (hx a)). pose proof (Rle_0_sqr (hy a)). pose proof (Rle_0_sqr (hz a)). unfold Rsqr in *.
  destruct i as [|[|[|[|i]]]]; [| | | |lia]; cbn [h4]; lra.
Qed.
Lemma sandwich_dir a v i : (i < 3)%nat -> 0 < hnorm2 a -> Rabs (hvec (sandwich a v) i - hvec (sandwich (hdir a) v) i) <= Rabs (hnorm2 a - 1) * norm 3 v.
Proof.
  intros Hi Pos. unfold hdir. rewrite sandwich_scal. unfold hvec. set (s := sandwich a v). assert (E : / hlen a * / hlen a = / hnorm2 a) by (rewrite <- (hlen_sqr a), Rinv_mult; ring). rewrite E.
  assert (F : h4 s (Datatypes.S i) - h4 (hscal (/ hnorm2 a) s) (Datatypes.S i) = (hnorm2 a - 1) * / hnorm2 a * h4 s (Datatypes.S i)).
  { destruct i as [|[|[|i]]]; [| | |lia]; unfold hscal; cbn [h4 hw hx hy hz]; field; lra. }
  rewrite F, !Rabs_mult. rewrite (Rabs_pos_eq (/ hnorm2 a)) by (apply Rlt_le, Rinv_0_lt_compat; lra). rewrite Rmult_assoc. apply Rmult_le_compat_l; [apply Rabs_pos|].
  pose proof (h4_len s (Datatypes.S i) ltac:(lia)) as L. unfold s in L. rewrite sandwich_len in L. fold s in L.
  apply Rmult_le_reg_l with (hnorm2 a); [exact Pos|]. rewrite <- Rmult_assoc, Rinv_r by lra. lra.
Qed.
Lemma sandwich_lip a b v : hlen a = 1 -> hlen b = 1 -> hdist (sandwich a v) (sandwich b v) <= 2 * hdist a b * norm 3 v.
Proof.
  intros A B. unfold sandwich. eapply Rle_trans; [apply (hdist_tri _ (hmul (hmul b (pure v)) (hconj a)))|]. rewrite hdist_mul_r, hdist_mul_r, hdist_mul_l, hdist_conj, hlen_mul, hlen_conj, pure_len, A, B. lra.
Qed.
Lemma rotate_dir q v i : qdoubles q -> 0 < hnorm2 (rq4 q) <= 121 / 100 -> doubles 3 v -> norm 3 (rco v) <= big / 100 -> (i < 3)%nat ->
  Rabs (rco (vec_rotate_q (H := I) v q) i - hvec (sandwich (hdir (rq4 q)) (rco v)) i) <= 640 * (u64 * norm 3 (rco v) + eta64) + 2 * Rabs (hnorm2 (rq4 q) - 1) * norm 3 (rco v).
Proof.
  intros Dq [N0 Nq] Dv Sv Hi. destruct (rotate_ok q v Dq Nq Dv Sv i Hi) as [_ A]. change (val (nth i (el (vec_rotate_q (H := I) v q)) (S754_zero false))) with (rco (vec_rotate_q (H := I) v q) i) in A.
  pose proof (sandwich_co (rq4 q) (rco v) i Hi) as C. assert (E : rot_exact (real (qw q)) (rco (qv q)) (rco v) i = rot_exact (hw (rq4 q)) (fun j => h4 (rq4 q) (Datatypes.S j)) (rco v) i).
  { unfold rot_exact, inner. cbn [Rsum]. destruct i as [|[|[|i]]]; [| | |lia]; reflexivity. }
  rewrite E, C in A. pose proof (sandwich_dir (rq4 q) (rco v) i Hi N0) as D. pose proof (co_norm (rco v) i Hi) as Vi.
  set (r := rco (vec_rotate_q (H := I) v q) i) in *. set (s := hvec (sandwich (rq4 q) (rco v)) i) in *. set (d := hvec (sandwich (hdir (rq4 q)) (rco v)) i) in *. set (k := hnorm2 (rq4 q) - 1) in *.
  assert (K : Rabs (k * rco v i) <= Rabs k * norm 3 (rco v)) by (rewrite Rabs_mult; apply Rmult_le_compat_l; auto using Rabs_pos).
  replace (r - d) with ((r - (s + k * rco v i)) + k * rco v i + (s - d)) by ring. pose proof (Rabs_triang (r - (s + k * rco v i) + k * rco v i) (s - d)). pose proof (Rabs_triang (r - (s + k * rco v i)) (k * rco v i)). lra.
Qed.
End B.
