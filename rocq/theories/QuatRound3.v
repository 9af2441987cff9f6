(** Lengths, directions and distances of Hamilton quaternions, and chains of products of quaternions of doubles. *)
From Coq Require Import ZArith NArith Reals Bool SpecFloat Lia Lra List Psatz.
From Flocq Require Import Core IEEE754.BinarySingleNaN.
From Verif Require Import Base Scalar OrdLib RLib B64Lib B64Ops FloatOps RoundLib RSpec ConstModel VecModel RotModel QuatModel VecSpec ConstSpec RoundSpec QuatSpec QuatRoundSpec
  RoundProofs RoundProofs2 RoundProofs3 RoundProofs4 RoundProofs5 QuatProofs DriftProofs QuatRound QuatRound2.
Import ListNotations.
Open Scope R_scope.

(** ** Hamilton quaternions as a normed space *)
Lemma hlen_norm a : hlen a = norm 4 (h4 a).
Proof. unfold hlen, norm, hnorm2, norm2, inner. cbn [Rsum h4]. f_equal. ring. Qed.
Lemma hnorm2_nonneg a : 0 <= hnorm2 a.
Proof. unfold hnorm2. pose proof (Rle_0_sqr (hw a)). pose proof (Rle_0_sqr (hx a)). pose proof (Rle_0_sqr (hy a)). pose proof (Rle_0_sqr (hz a)). unfold Rsqr in *. lra. Qed.
Lemma hlen_nonneg a : 0 <= hlen a. Proof. apply sqrt_pos. Qed.
Lemma hlen_sqr a : hlen a * hlen a = hnorm2 a. Proof. apply sqrt_sqrt, hnorm2_nonneg. Qed.
Lemma hlen_mul a b : hlen (hmul a b) = hlen a * hlen b.
Proof. unfold hlen. rewrite hmul_norm. apply sqrt_mult; apply hnorm2_nonneg. Qed.
Lemma hlen_conj a : hlen (hconj a) = hlen a.
Proof. unfold hlen. now rewrite hconj_norm. Qed.
Lemma hlen_scal k a : hlen (hscal k a) = Rabs k * hlen a.
Proof. rewrite !hlen_norm, <- norm_scal_abs. unfold norm, norm2, inner. cbn [Rsum h4 hscal hw hx hy hz]. reflexivity. Qed.
Lemma hdist_norm a b : hdist a b = norm 4 (fun i => h4 a i - h4 b i).
Proof. unfold hdist. rewrite hlen_norm. unfold norm, norm2, inner. cbn [Rsum h4 hsub hw hx hy hz]. reflexivity. Qed.
Lemma hdist_nonneg a b : 0 <= hdist a b. Proof. apply hlen_nonneg. Qed.
Lemma hdist_tri a b c : hdist a c <= hdist a b + hdist b c.
Proof. rewrite !hdist_norm. eapply Rle_trans; [|apply norm_triangle]. apply Req_le. unfold norm. f_equal. unfold norm2, inner. apply Rsum_ext. intros. ring. Qed.
Lemma hdist_sym a b : hdist a b = hdist b a.
Proof. unfold hdist, hlen. f_equal. unfold hnorm2, hsub. cbn [hw hx hy hz]. ring. Qed.
Lemma hdist_refl a : hdist a a = 0.
Proof. unfold hdist, hlen. replace (hnorm2 (hsub a a)) with 0; [apply sqrt_0|]. unfold hnorm2, hsub. cbn [hw hx hy hz]. ring. Qed.
Lemma hdist_len a b : Rabs (hlen a - hlen b) <= hdist a b.
Proof. rewrite !hlen_norm, hdist_norm. apply norm_diff. Qed.
Lemma hdist_mul_l c a b : hdist (hmul c a) (hmul c b) = hlen c * hdist a b.
Proof. unfold hdist. rewrite <- hlen_mul. unfold hlen. f_equal. unfold hnorm2, hsub, hmul. cbn [hw hx hy hz]. ring. Qed.
Lemma hdist_mul_r c a b : hdist (hmul a c) (hmul b c) = hdist a b * hlen c.
Proof. unfold hdist. rewrite <- hlen_mul. unfold hlen. f_equal. unfold hnorm2, hsub, hmul. cbn [hw hx hy hz]. ring. Qed.
Lemma hdist_conj a b : hdist (hconj a) (hconj b) = hdist a b.
Proof. unfold hdist, hlen. f_equal. unfold hnorm2, hsub, hconj. cbn [hw hx hy hz]. ring. Qed.
Lemma hclose_dist a b k : 0 <= k -> hclose a b k -> hdist a b <= 2 * k.
Proof.
  intros K (A & B & C & D). unfold hdist, hlen. rewrite <- (sqrt_square (2 * k)) by lra. apply sqrt_le_1_alt. unfold hnorm2, hsub. cbn [hw hx hy hz].
  assert (Q : forall x, Rabs x <= k -> x * x <= k * k) by (intros x X; apply Rabs_le_inv in X; nra). pose proof (Q _ A). pose proof (Q _ B). pose proof (Q _ C). pose proof (Q _ D). lra.
Qed.
Lemma hdir_len a : 0 < hlen a -> hlen (hdir a) = 1.
Proof. intros P. unfold hdir. rewrite hlen_scal, Rabs_pos_eq by (apply Rlt_le, Rinv_0_lt_compat; auto). apply Rinv_l. lra. Qed.
Lemma hdir_mul a b : 0 < hlen a -> 0 < hlen b -> hdir (hmul a b) = hmul (hdir a) (hdir b).
Proof. intros A B. unfold hdir. rewrite hlen_mul. rewrite Rinv_mult. unfold hscal, hmul. cbn [hw hx hy hz]. f_equal; ring. Qed.
Lemma hdir_conj a : hdir (hconj a) = hconj (hdir a).
Proof. unfold hdir. rewrite hlen_conj. unfold hscal, hconj. cbn [hw hx hy hz]. f_equal; ring. Qed.
Lemma hdir_scal k a : 0 < k -> 0 < hlen a -> hdir (hscal k a) = hdir a.
Proof. intros K A. unfold hdir. rewrite hlen_scal, (Rabs_pos_eq k) by lra. unfold hscal. cbn [hw hx hy hz]. f_equal; field; lra. Qed.
Lemma hdir_close a b : 0 < hlen a -> 0 < hlen b -> hdist (hdir a) (hdir b) <= 2 * hdist a b / hlen a.
Proof.
  intros A B. set (c := hscal (/ hlen a) b).
  assert (D1 : hdist (hdir a) c = hdist a b / hlen a).
  { unfold hdist. replace (hsub (hdir a) c) with (hscal (/ hlen a) (hsub a b)) by (unfold c, hdir, hsub, hscal; cbn [hw hx hy hz]; f_equal; ring). rewrite hlen_scal, Rabs_pos_eq by (apply Rlt_le, Rinv_0_lt_compat; auto). unfold Rdiv. ring. }
  assert (D2 : hdist c (hdir b) = Rabs (hlen b - hlen a) / hlen a).
  { unfold hdist. replace (hsub c (hdir b)) with (hscal (/ hlen a - / hlen b) b) by (unfold c, hdir, hsub, hscal; cbn [hw hx hy hz]; f_equal; ring). rewrite hlen_scal. unfold Rdiv.
    rewrite <- (Rabs_pos_eq (hlen b)) at 2 by lra. rewrite <- Rabs_mult. rewrite <- (Rabs_pos_eq (/ hlen a)) at 2 by (apply Rlt_le, Rinv_0_lt_compat; auto). rewrite <- Rabs_mult. f_equal. field. lra. }
  pose proof (hdist_tri (hdir a) c (hdir b)) as T. rewrite D1, D2 in T. pose proof (hdist_len b a) as L. rewrite (hdist_sym b a) in L.
  assert (Rabs (hlen b - hlen a) / hlen a <= hdist a b / hlen a) by (apply Rmult_le_compat_r; [apply Rlt_le, Rinv_0_lt_compat|]; auto). lra.
Qed.
Lemma hlen_bounds a e : 0 <= e <= / 100 -> Rabs (hnorm2 a - 1) <= e -> 99 / 100 <= hlen a <= 101 / 100.
Proof.
  intros E H. apply Rabs_le_inv in H. pose proof (hlen_sqr a) as S. pose proof (hlen_nonneg a). split; nra.
Qed.
(** the distance that a rounding error of the components makes in the direction *)
Lemma dir_of_close a b k : 0 <= k <= / 1000 -> Rabs (hnorm2 b - 1) <= / 100 -> hclose a b k -> hdist (hdir a) (hdir b) <= 41 / 10 * k /\ 0 < hlen a.
Proof.
  intros K N C. pose proof (hclose_dist a b k ltac:(lra) C) as D. pose proof (hlen_bounds b (/ 100) ltac:(lra) N) as [L1 L2].
  pose proof (hdist_len a b) as L. apply Rabs_le_inv in L. assert (A : 0 < hlen a) by lra. split; auto.
  rewrite hdist_sym. eapply Rle_trans; [apply hdir_close; lra|]. rewrite hdist_sym. unfold Rdiv at 1. pose proof (hdist_nonneg a b).
  assert (I : / hlen b <= / (99 / 100)) by (apply Rinv_le_contravar; lra). assert (0 < / hlen b) by (apply Rinv_0_lt_compat; lra).
  apply Rle_trans with (2 * (2 * k) * / (99 / 100)); [apply Rmult_le_compat; lra|]. lra.
Qed.

(** ** One step *)
Definition dnear (q : quat spec_float) : Prop :=
  qdoubles q /\ qvalid q = true /\ (qage q < 20)%N /\ Rabs (hnorm2 (rq4 q) - 1) <= 800 * u64 * (IZR (Z.of_N (qage q)) + 1).
Definition dfresh (q : quat spec_float) : Prop := qdoubles q /\ qvalid q = true /\ (1 <= qage q < 20)%N /\ Rabs (hnorm2 (rq4 q) - 1) <= 100 * u64.

Section B.
Variable m : libm.
Local Notation I := (B64 m).
Lemma dnear_bound q : dnear q -> Rabs (hnorm2 (rq4 q) - 1) <= 16000 * u64.
Proof. intros (_ & _ & A & B). nums. assert (IZR (Z.of_N (qage q)) <= 19) by (apply IZR_le; lia). nra. Qed.
Lemma perturb_norm a b k : hclose a b k -> 0 <= k <= / 1000 -> Rabs (hnorm2 a - hnorm2 b) <= 2 * k * (hnorm2 b + 1) + 4 * (k * k).
Proof. intros (A & B & C & D) K. unfold hnorm2. apply perturbed; auto; lra. Qed.
Lemma dnormalize q : dnear q -> let r := quat_normalize (H := I) q in
  qdoubles r /\ Rabs (hnorm2 (rq4 r) - 1) <= 90 * u64 /\ hdist (hdir (rq4 r)) (hdir (rq4 q)) <= 70 * u64.
Proof.
  intros G r. nums. pose proof (dnear_bound q G) as Bq. destruct G as (D & V & A & _). set (n := hnorm2 (rq4 q)) in *. pose proof (Rabs_le_inv _ _ Bq) as Bn.
  destruct (norm_ok m q D) as [Dr Cr]; [fold n; lra|]. fold n r in Cr. fold r in Dr. split; auto.
  set (s := hscal (2 / (n + 1)) (rq4 q)) in *.
  assert (En : hnorm2 s = 1 - ((n - 1) / (n + 1)) * ((n - 1) / (n + 1))).
  { unfold s. replace (hnorm2 (hscal (2 / (n + 1)) (rq4 q))) with (2 / (n + 1) * (2 / (n + 1)) * n) by (unfold n, hnorm2, hscal; cbn [hw hx hy hz]; ring). field. lra. }
  assert (R1 : Rabs ((n - 1) / (n + 1)) <= 16000 * u64).
  { unfold Rdiv. rewrite Rabs_mult. rewrite (Rabs_pos_eq (/ (n + 1))) by (apply Rlt_le, Rinv_0_lt_compat; lra). assert (/ (n + 1) <= 1) by (rewrite <- Rinv_1; apply Rinv_le_contravar; lra). assert (0 < / (n + 1)) by (apply Rinv_0_lt_compat; lra). pose proof (Rabs_pos (n - 1)). nra. }
  assert (R2 : 0 <= (n - 1) / (n + 1) * ((n - 1) / (n + 1)) <= u64). { apply Rabs_le_inv in R1. set (t := (n - 1) / (n + 1)) in *. split; [nra|]. assert (t * t <= 16000 * u64 * (16000 * u64)) by nra. assert (16000 * u64 * (16000 * u64) <= u64) by nra. lra. }
  assert (Ns : Rabs (hnorm2 s - 1) <= u64) by (rewrite En; apply Rabs_le; lra).
  pose proof (perturb_norm _ _ _ Cr ltac:(lra)) as P. split.
  - apply Rabs_le_inv in Ns. apply Rabs_le_inv in P. assert (K : 2 * (15 * u64) * (hnorm2 s + 1) + 4 * (15 * u64 * (15 * u64)) <= 80 * u64) by nra. apply Rabs_le. lra.
  - destruct (dir_of_close (rq4 r) s (15 * u64) ltac:(lra) ltac:(lra) Cr) as [H _]. unfold s in H. rewrite hdir_scal in H; [lra|apply Rdiv_lt_0_compat; lra|]. pose proof (hlen_bounds (rq4 q) (16000 * u64) ltac:(lra) Bq). lra.
Qed.
(** a product of raw operands: c is the exact product *)
Lemma step_of r a f c : hclose (rq4 r) c (150 * u64) -> hnorm2 c = hnorm2 f * hnorm2 (rq4 a) -> Rabs (hnorm2 f - 1) <= 100 * u64 -> Rabs (hnorm2 (rq4 a) - 1) <= 16000 * u64 ->
  Rabs (hnorm2 (rq4 r) - hnorm2 (rq4 a)) <= 710 * u64 /\ hdist (hdir (rq4 r)) (hdir c) <= 620 * u64.
Proof.
  intros C N Bf Ba. nums. apply Rabs_le_inv in Bf. apply Rabs_le_inv in Ba. set (x := hnorm2 f) in *. set (y := hnorm2 (rq4 a)) in *.
  assert (Nc : Rabs (hnorm2 c - y) <= 102 * u64). { rewrite N. replace (x * y - y) with ((x - 1) * y) by ring. rewrite Rabs_mult. rewrite (Rabs_pos_eq y) by lra. assert (Rabs (x - 1) <= 100 * u64) by (apply Rabs_le; lra). pose proof (Rabs_pos (x - 1)). apply Rle_trans with (100 * u64 * (102 / 100)); [apply Rmult_le_compat; lra|lra]. }
  pose proof (perturb_norm _ _ _ C ltac:(lra)) as P. apply Rabs_le_inv in Nc. split.
  - apply Rabs_le_inv in P. assert (2 * (150 * u64) * (hnorm2 c + 1) + 4 * (150 * u64 * (150 * u64)) <= 605 * u64) by nra. apply Rabs_le. lra.
  - destruct (dir_of_close (rq4 r) c (150 * u64) ltac:(lra) ltac:(apply Rabs_le; lra) C) as [H _]. lra.
Qed.
Lemma pos_len a e : Rabs (hnorm2 a - 1) <= e -> e <= / 100 -> 0 < hlen a.
Proof. intros H E. pose proof (hlen_bounds a (/ 100) ltac:(lra) ltac:(lra)). lra. Qed.

(** the left operand as the product finds it *)
Lemma checked p q : dnear p -> dfresh q ->
  let a := quat_check (H := I) (mkQ (qw p) (qv p) (qvalid p && qvalid q) (age_add (qage p) (qage q))) in
  qdoubles a /\ qvalid a = true /\ (qage a < 20)%N /\ Rabs (hnorm2 (rq4 a) - 1) <= 800 * u64 * IZR (Z.of_N (qage a)) /\ hdist (hdir (rq4 a)) (hdir (rq4 p)) <= 70 * u64.
Proof.
  intros G (Dq & Vq & Aq & Nq) a. nums. assert (G' := G). destruct G as (D & V & A & N).
  assert (AA : age_add (qage p) (qage q) = (qage p + qage q)%N) by (unfold age_add; apply N.mod_small; lia).
  unfold a, quat_check. change (N.of_nat max_norm_age) with 20%N. cbn [qvalid qage]. rewrite V, Vq, AA. cbn [andb]. rewrite andb_true_r.
  destruct (N.leb_spec 20 (qage p + qage q)) as [L|L].
  - set (p' := mkQ (qw p) (qv p) true (qage p + qage q)). destruct (dnormalize p G') as (D1 & N1 & H1).
    assert (E : rq4 (quat_normalize (H := I) p') = rq4 (quat_normalize (H := I) p)) by reflexivity.
    split; [exact D1|]. split; [reflexivity|]. split; [cbn [quat_normalize qage]; lia|]. rewrite E. split; [|exact H1]. cbn [quat_normalize qage]. change (IZR (Z.of_N 1)) with 1. lra.
  - change (rq4 {| qw := qw p; qv := qv p; qvalid := true; qage := qage p + qage q |}) with (rq4 p). cbn [qage qvalid]. split; [exact D|]. split; [reflexivity|]. split; [exact L|]. split; [|rewrite hdist_refl; lra].
    eapply Rle_trans; [exact N|]. apply Rmult_le_compat_l; [lra|]. rewrite <- plus_IZR. apply IZR_le. lia.
Qed.
Lemma dnear_mul p q : dnear p -> dfresh q -> dnear (quat_mul (H := I) p q) /\
  hdist (hdir (rq4 (quat_mul (H := I) p q))) (hmul (hdir (rq4 q)) (hdir (rq4 p))) <= 700 * u64.
Proof.
  intros G Fq. nums. destruct (checked p q G Fq) as (Da & Va & Aa & Na & Ha). unfold quat_mul. set (a := quat_check (H := I) _) in *. fold (dmul m a q).
  destruct Fq as (Dq & Vq & Aq & Nq). assert (IA : IZR (Z.of_N (qage a)) <= 19) by (apply IZR_le; lia). assert (0 <= IZR (Z.of_N (qage a))) by (apply IZR_le; lia).
  assert (Ba : Rabs (hnorm2 (rq4 a) - 1) <= 16000 * u64) by nra. assert (Ba' := Rabs_le_inv _ _ Ba). assert (Bq' := Rabs_le_inv _ _ Nq).
  destruct (dmul_ok m a q Da Dq ltac:(lra) ltac:(lra)) as [Dr Cr]. destruct (step_of (dmul m a q) a (rq4 q) _ Cr (hmul_norm _ _) Nq Ba) as [S1 S2].
  split.
  - split; [exact Dr|]. split; [exact Va|]. split; [exact Aa|]. change (qage (dmul m a q)) with (qage a). apply Rabs_le_inv in S1. apply Rabs_le_inv in Na. apply Rabs_le. lra.
  - rewrite hdir_mul in S2; [|apply (pos_len _ _ Nq ltac:(lra))|apply (pos_len _ _ Ba ltac:(lra))].
    pose proof (hdist_tri (hdir (rq4 (dmul m a q))) (hmul (hdir (rq4 q)) (hdir (rq4 a))) (hmul (hdir (rq4 q)) (hdir (rq4 p)))) as T. rewrite hdist_mul_l, hdir_len, Rmult_1_l in T; [lra|]. apply (pos_len _ _ Nq ltac:(lra)).
Qed.
Lemma dnear_div p q : dnear p -> dfresh q -> dnear (quat_div (H := I) p q) /\
  hdist (hdir (rq4 (quat_div (H := I) p q))) (hmul (hconj (hdir (rq4 q))) (hdir (rq4 p))) <= 700 * u64.
Proof.
  intros G Fq. nums. destruct (checked p q G Fq) as (Da & Va & Aa & Na & Ha). unfold quat_div. set (a := quat_check (H := I) _) in *. fold (ddiv m a q).
  destruct Fq as (Dq & Vq & Aq & Nq). assert (IA : IZR (Z.of_N (qage a)) <= 19) by (apply IZR_le; lia). assert (0 <= IZR (Z.of_N (qage a))) by (apply IZR_le; lia).
  assert (Ba : Rabs (hnorm2 (rq4 a) - 1) <= 16000 * u64) by nra. assert (Ba' := Rabs_le_inv _ _ Ba). assert (Bq' := Rabs_le_inv _ _ Nq).
  destruct (ddiv_ok m a q Da Dq ltac:(lra) ltac:(lra)) as [Dr Cr]. destruct (step_of (ddiv m a q) a (hconj (rq4 q)) _ Cr (hmul_norm _ _) ltac:(now rewrite hconj_norm) Ba) as [S1 S2].
  split.
  - split; [exact Dr|]. split; [exact Va|]. split; [exact Aa|]. change (qage (ddiv m a q)) with (qage a). apply Rabs_le_inv in S1. apply Rabs_le_inv in Na. apply Rabs_le. lra.
  - rewrite hdir_mul, hdir_conj in S2; [|rewrite hlen_conj; apply (pos_len _ _ Nq ltac:(lra))|apply (pos_len _ _ Ba ltac:(lra))].
    pose proof (hdist_tri (hdir (rq4 (ddiv m a q))) (hmul (hconj (hdir (rq4 q))) (hdir (rq4 a))) (hmul (hconj (hdir (rq4 q))) (hdir (rq4 p)))) as T. rewrite hdist_mul_l, hlen_conj, hdir_len, Rmult_1_l in T; [lra|]. apply (pos_len _ _ Nq ltac:(lra)).
Qed.
Lemma dnear_inverse p : dnear p -> dnear (quat_inverse (H := I) p) /\ hdir (rq4 (quat_inverse (H := I) p)) = hconj (hdir (rq4 p)).
Proof.
  intros (D & V & A & N). destruct (inverse_ok m p D) as [Di Ei]. rewrite Ei. split; [|apply hdir_conj]. split; [exact Di|]. split; [exact V|]. split; [exact A|]. rewrite Ei, hconj_norm. exact N.
Qed.
Lemma dnear_normalize p : dnear p -> dnear (quat_normalize (H := I) p) /\ hdist (hdir (rq4 (quat_normalize (H := I) p))) (hdir (rq4 p)) <= 70 * u64.
Proof.
  intros G. nums. destruct (dnormalize p G) as (D & N & H). split; auto. split; [exact D|]. split; [exact (proj1 (proj2 G))|]. split; [cbn [quat_normalize qage]; lia|]. cbn [quat_normalize qage]. change (IZR (Z.of_N 1)) with 1. fold (quat_normalize (H := I) p). lra.
Qed.
End B.
