(** C65: the length of a quaternion under any number of products. *)
From Coq Require Import Reals Lra Lia List Bool Psatz ZArith NArith SpecFloat.
From Flocq Require Import Core.Zaux Core.Raux.
From Verif Require Import Base Scalar ConstModel VecModel RotModel QuatModel RSpec RLib VecSpec VecProofs VecProofs2 VecProofs4 RotSpec QuatSpec QuatProofs QuatProofs2 QuatProofs3 QuatProofs6 DriftProofs.
Import ListNotations.
Open Scope R_scope.

(** q = q * q, k times *)
Fixpoint squares {T} `{Num T} (k : nat) (q : quat T) : quat T :=
  match k with O => q | S k => squares k (quat_mul q q) end.

(** Doubles.  Quaternion(1, 2, 0, 0), squared eighty times, is valid, reports age 1, and has become zero: when the
    ages add up to the limit operator*= renormalises its left operand only, multiplies by the right one with all the
    error it has gathered, and sets the age back to 1. *)
Theorem C65_double_refuted : forall m : libm,
  let q := squares (H := B64 m) 80 (quat_make (H := B64 m) (b64_ofZ 1) (b64_ofZ 2) (b64_ofZ 0) (b64_ofZ 0)) in
  qvalid q = true /\ qage q = 1%N /\
  SFeqb (nadd (Num := B64 m) (nmul (Num := B64 m) (qw q) (qw q)) (sqr_mag (H := B64 m) 3 (qv q))) (S754_zero false) = true.
Proof. intros m. vm_compute. repeat split; reflexivity. Qed.
Print Assumptions C65_double_refuted.
(** The other way: the length of Quaternion(3, 4, 0, 0), squared seventy-five times, is above 1.9. *)
Theorem C65_double_long_refuted : forall m : libm,
  let q := squares (H := B64 m) 75 (quat_make (H := B64 m) (b64_ofZ 3) (b64_ofZ 4) (b64_ofZ 0) (b64_ofZ 0)) in
  qvalid q = true /\ qage q = 1%N /\
  SFltb (b64_ofZ 3) (nadd (Num := B64 m) (nmul (Num := B64 m) (qw q) (qw q)) (sqr_mag (H := B64 m) 3 (qv q))) = true.
Proof. intros m. vm_compute. repeat split; reflexivity. Qed.
Print Assumptions C65_double_long_refuted.

(** Exact arithmetic, every positive tolerance: p / p need not be the identity (Dot rounds to zero), and its
    repeated squares become as short as one likes, while they stay valid. *)
Section S.
Context (eps : Epsilon).
Lemma div_self x : 0 < (eps : R) <= 1 -> x = sqrt (1 - eps * eps / 4) ->
  scal (x * x) 2 (quat_div (quat_make x (eps / 2) 0 0) (quat_make x (eps / 2) 0 0)).
Proof.
  intros He Ex. assert (X2 : x * x = 1 - eps * eps / 4) by (rewrite Ex; apply sqrt_sqrt; nra).
  assert (M : quat_make x (eps / 2) 0 0 = mkQ x (axis_vec 3 (eps / 2)) true 1).
  { unfold quat_make. cbn [nadd nmul ndiv nsqrt Rnum]. replace (x * x + eps / 2 * (eps / 2) + 0 * 0 + 0 * 0) with 1 by (rewrite X2; field). rewrite sqrt_1. unfold axis_vec, tab. cbn [seq map Nat.eqb]. unfold Rdiv. rewrite Rinv_1, !Rmult_1_r. reflexivity. }
  rewrite M. destruct (dot_self_short eps 3 ltac:(lia) ltac:(lra)) as [D0 _]. set (v := axis_vec 3 (eps / 2)) in *.
  unfold quat_div, quat_check. cbn [qw qv qvalid qage andb]. change (N.of_nat max_norm_age <=? age_add 1 1)%N with false. cbn [andb].
  split; [|split; [|split; [|split]]]; cbn [qw qv qvalid qage]; auto.
  - rewrite D0. cbn [nadd nmul Rnum]. ring.
  - intros i Hi. unfold vec_sub, vec_add, vec_scale. rewrite co_tab by auto. rewrite !at_tab by auto. toco. rewrite cross3_co by auto.
    assert (E : cross_coord (co v) (co v) i = 0) by (destruct i as [|[|[|]]]; try lia; cbn [cross_coord]; ring). rewrite E. unfold rclamp. destruct (Rlt_bool _ _); ring.
  - apply dims_tab.
Qed.
Lemma square x a q : scal x a q -> (a < 10)%N -> scal (x * x) (a + a) (quat_mul q q).
Proof. intros S Ha. pose proof (scal_mul eps x x a a q q S S ltac:(lia)) as X. destruct (N.leb_spec 20 (a + a)); [lia|exact X]. Qed.
Lemma square16 x q : scal x 16 q -> scal (2 * (x * x) / (x * x + 1)) 1 (quat_mul q q).
Proof. intros S. pose proof (scal_mul eps x x 16 16 q q S S ltac:(lia)) as X. cbn in X. replace (2 * (x * x) / (x * x + 1)) with (2 * x / (x * x + 1) * x) by (field; nra). exact X. Qed.
Lemma shrink y : 0 < y < 1 -> 0 < 2 * (y * y) / (y * y + 1) <= y.
Proof.
  intros Hy. split; [apply Rdiv_lt_0_compat; nra|]. apply Rmult_le_reg_r with (y * y + 1); [nra|]. unfold Rdiv. rewrite Rmult_assoc, Rinv_l, Rmult_1_r by nra. pose proof (pow2_ge_0 (y - 1)). nra.
Qed.
Lemma squares_S k q : squares (H := Rnum eps) (S k) q = squares k (quat_mul q q).
Proof. reflexivity. Qed.
Lemma five x q : 0 < x < 1 -> scal x 1 q -> exists y, 0 < y <= x * x /\ scal y 1 (squares 5 q).
Proof.
  intros Hx S. pose proof (square _ _ _ S ltac:(lia)) as S2. pose proof (square _ _ _ S2 ltac:(lia)) as S4. pose proof (square _ _ _ S4 ltac:(lia)) as S8. pose proof (square _ _ _ S8 ltac:(lia)) as S16. pose proof (square16 _ _ S16) as S32.
  eexists. split; [|exact S32]. set (x2 := x * x). assert (0 < x2 < 1) by (unfold x2; nra). set (x4 := x2 * x2). assert (0 < x4 <= x2) by (unfold x4; nra). set (x8 := x4 * x4). assert (0 < x8 <= x4) by (unfold x8; nra). set (x16 := x8 * x8). assert (0 < x16 <= x8) by (unfold x16; nra).
  pose proof (shrink x16 ltac:(lra)). lra.
Qed.
Lemma squares_add a b q : squares (H := Rnum eps) (a + b) q = squares b (squares a q).
Proof. revert q. induction a; intros q; [reflexivity|]. cbn [Nat.add]. rewrite !squares_S. apply IHa. Qed.
Lemma many k x q : 0 < x < 1 -> scal x 1 q -> exists y, 0 < y <= x ^ S k /\ scal y 1 (squares (5 * k) q).
Proof.
  intros Hx S. induction k as [|k (y & Hy & Sy)].
  - exists x. split; [lra|exact S].
  - assert (x ^ Datatypes.S k <= x) by (rewrite <- (Rmult_1_r x) at 2; cbn [pow]; apply Rmult_le_compat_l; [lra|]; rewrite <- (pow1 k); apply pow_incr; lra).
    destruct (five y _ ltac:(lra) Sy) as (z & Hz & Sz). exists z. split.
    + split; [lra|]. apply Rle_trans with (1 := proj2 Hz). replace (x ^ Datatypes.S (Datatypes.S k)) with (x * x ^ Datatypes.S k) by reflexivity. apply Rmult_le_compat; lra.
    + replace (5 * Datatypes.S k)%nat with (5 * k + 5)%nat by lia. rewrite squares_add. exact Sz.
Qed.
End S.
Theorem C65_exact_refuted : forall (eps : Epsilon) d, 0 < (eps : R) <= 1 -> 0 < d ->
  exists w k, let p := quat_make w (eps / 2) 0 0 in let q := squares k (quat_div p p) in
    unit_quat p /\ qvalid q = true /\ 0 < hnorm2 (q4 q) < d.
Proof.
  intros eps d He Hd. set (x := sqrt (1 - eps * eps / 4)). pose proof (div_self eps x He eq_refl) as S0.
  assert (X2 : x * x = 1 - eps * eps / 4) by (unfold x; apply sqrt_sqrt; nra). rewrite X2 in S0. set (y := 1 - eps * eps / 4) in *. assert (Hy : 0 < y < 1) by (unfold y; nra).
  assert (UP : unit_quat (quat_make x (eps / 2) 0 0)).
  { unfold unit_quat, hnorm2, q4, quat_make. cbn [hw hx hy hz qw qv nadd nmul ndiv nsqrt Rnum]. unfold co. cbn [el nth].
    replace (x * x + eps / 2 * (eps / 2) + 0 * 0 + 0 * 0) with 1 by (rewrite X2; unfold y; field). rewrite sqrt_1. unfold Rdiv. rewrite Rinv_1, !Rmult_1_r. rewrite X2. unfold y. field. }
  cut (exists k, let q := squares k (quat_div (quat_make x (eps / 2) 0 0) (quat_make x (eps / 2) 0 0)) in qvalid q = true /\ 0 < hnorm2 (q4 q) < d).
  { intros (k & K1 & K2). exists x, k. cbv zeta. auto. }
  set (q0 := quat_div (quat_make x (eps / 2) 0 0) (quat_make x (eps / 2) 0 0)) in *. clearbody q0.
  pose proof (square eps _ _ _ S0 ltac:(lia)) as S1. pose proof (square eps _ _ _ S1 ltac:(lia)) as S2. pose proof (square eps _ _ _ S2 ltac:(lia)) as S3. pose proof (square16 eps _ _ S3) as S4.
  set (y2 := y * y) in *. assert (0 < y2 < 1) by (unfold y2; nra). set (y4 := y2 * y2) in *. assert (0 < y4 < 1) by (unfold y4; nra). set (y8 := y4 * y4) in *. assert (0 < y8 < 1) by (unfold y8; nra).
  pose proof (shrink y8 ltac:(lra)) as Sh. set (z := 2 * (y8 * y8) / (y8 * y8 + 1)) in *.
  destruct (pow_lt_1_zero z ltac:(rewrite Rabs_pos_eq; lra) d Hd) as (N & HN).
  destruct (many eps N z _ ltac:(lra) S4) as (u & Hu & Su). specialize (HN (S N) ltac:(lia)). rewrite Rabs_pos_eq in HN by (apply pow_le; lra).
  exists (4 + 5 * N)%nat. cbv zeta. assert (Su' : scal u 1 (squares (4 + 5 * N) q0)) by exact Su. clear Su. split; [exact (proj1 (proj2 (proj2 (proj2 Su'))))|].
  rewrite (scal_norm _ _ _ Su'). assert (z ^ S N <= 1) by (rewrite <- (pow1 (S N)); apply pow_incr; lra). split; nra.
Qed.
Print Assumptions C65_exact_refuted.

(** What does hold: multiplying and dividing on the right by fresh rotations (of length 1, of age 1 to 19),
    inverting and normalising, in any order and for ever, from a quaternion of length 1: the squared length stays
    within 200 epsilon of 1. *)
Inductive move := Times (q : quat R) | Over (q : quat R) | Invert | Normalise.
Definition fresh (q : quat R) : Prop := qdims q /\ unit_quat q /\ qvalid q = true /\ (1 <= qage q < 20)%N.
Definition fresh_move (m : move) : Prop := match m with Times q | Over q => fresh q | _ => True end.
Definition apply_move (eps : Epsilon) (p : quat R) (m : move) : quat R :=
  match m with Times q => quat_mul p q | Over q => quat_div p q | Invert => quat_inverse p | Normalise => quat_normalize p end.
Theorem C65_chain_partial : forall (eps : Epsilon) p moves, 0 <= (eps : R) <= / 5000 ->
  qdims p -> unit_quat p -> qvalid p = true -> (qage p < 20)%N -> Forall fresh_move moves ->
  let q := fold_left (apply_move eps) moves p in qvalid q = true /\ Rabs (hnorm2 (q4 q) - 1) <= 200 * eps.
Proof.
  intros eps p moves He D U V A F q. assert (G : near eps q).
  { assert (Gp : near eps p) by (apply near_unit; auto; lra). unfold q. clear q D U V A. revert p Gp. induction F as [|m moves Fm F IH]; intros p Gp; [exact Gp|]. cbn [fold_left]. apply IH.
    destruct m as [q|q| |]; cbn [apply_move fresh_move] in *.
    - destruct Fm as (D & U & V & A). apply near_mul; auto.
    - destruct Fm as (D & U & V & A). rewrite div_is_mul_inverse by auto. apply near_mul; auto; [apply dims_tab|apply inverse_unit; auto].
    - apply near_inverse; auto.
    - apply near_normalize; auto. }
  split; [exact (proj1 (proj2 G))|]. apply near_bound; auto. lra.
Qed.
Print Assumptions C65_chain_partial.

Example C65_example : fresh (quat_make (H := Rnum 0) 3 4 0 0) /\ qdims (quat_identity (H := Rnum 0)) /\ unit_quat (quat_identity (H := Rnum 0)).
Proof.
  split; [|split; [reflexivity|unfold unit_quat, hnorm2, q4, co; cbn; ring]]. split; [reflexivity|]. split; [|split; [reflexivity|cbn; lia]].
  unfold unit_quat, hnorm2, q4, co. cbn [hw hx hy hz qw qv quat_make el nth nadd nmul ndiv nsqrt Rnum]. replace (3 * 3 + 4 * 4 + 0 * 0 + 0 * 0) with (5 * 5) by ring. rewrite sqrt_square by lra. field.
Qed.
