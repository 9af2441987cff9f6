(** Segments and axis boxes of doubles whose coordinate differences are exact; whole numbers. *)
From Coq Require Import ZArith NArith Reals Bool SpecFloat Lia Lra List Psatz.
From Flocq Require Import Core IEEE754.BinarySingleNaN.
From Verif Require Import Base Scalar OrdLib RLib B64Lib B64Ops RoundLib RoundProofs RSpec ConstModel VecModel VecSpec ShapeProofs3 BallDouble BoxDouble CoordRound RbDouble OwnDouble SegDouble.
From Verif Require Import ShapeModel IntersectModel ShapeSpec.
Import ListNotations.
Open Scope R_scope.

Lemma rnd_1 : rnd 1 = 1.
Proof. change 1 with (bpow radix2 0). apply rnd_bpow. lia. Qed.
Lemma rnd_max x y : rnd (Rmax x y) = Rmax (rnd x) (rnd y).
Proof. unfold Rmax. destruct (Rle_dec x y) as [L|L]; destruct (Rle_dec (rnd x) (rnd y)) as [K|K]; auto. - exfalso. apply K. now apply rnd_mono. - pose proof (rnd_mono y x ltac:(lra)). lra. Qed.
Lemma rnd_min x y : rnd (Rmin x y) = Rmin (rnd x) (rnd y).
Proof. unfold Rmin. destruct (Rle_dec x y) as [L|L]; destruct (Rle_dec (rnd x) (rnd y)) as [K|K]; auto. - exfalso. apply K. now apply rnd_mono. - pose proof (rnd_mono y x ltac:(lra)). lra. Qed.

(** ** Quotients of small whole numbers are told apart by rounding *)
Definition M : Z := (2 ^ 25)%Z.
Definition small_frac (x : R) : Prop := exists a c : Z, (Z.abs a <= M)%Z /\ (0 < c <= M)%Z /\ x = IZR a / IZR c.
Lemma frac_gap x y : small_frac x -> small_frac y -> y < x -> / (IZR M * IZR M) <= x - y.
Proof.
  intros (a & c & A & C & ->) (a' & c' & A' & C' & ->) L. assert (Pc : 0 < IZR c) by (apply IZR_lt; lia). assert (Pc' : 0 < IZR c') by (apply IZR_lt; lia).
  assert (E : IZR a / IZR c - IZR a' / IZR c' = IZR (a * c' - a' * c) / (IZR c * IZR c')) by (rewrite minus_IZR, !mult_IZR; field; lra).
  assert (Z1 : (1 <= a * c' - a' * c)%Z). { assert (P : 0 < IZR (a * c' - a' * c)). { assert (Q : 0 < IZR a / IZR c - IZR a' / IZR c') by lra. rewrite E in Q. apply Rmult_lt_reg_r with (/ (IZR c * IZR c')); [apply Rinv_0_lt_compat; nra|]. rewrite Rmult_0_l. exact Q. } apply lt_IZR in P. lia. }
  rewrite E. assert (Pm : IZR c * IZR c' <= IZR M * IZR M) by (apply Rmult_le_compat; try lra; apply IZR_le; lia). apply IZR_le in Z1.
  assert (Iv : / (IZR M * IZR M) <= / (IZR c * IZR c')) by (apply Rinv_le_contravar; [nra|exact Pm]). assert (0 < / (IZR c * IZR c')) by (apply Rinv_0_lt_compat; nra). unfold Rdiv. nra.
Qed.
Lemma frac_IZR z : (Z.abs z <= M)%Z -> small_frac (IZR z).
Proof. intros Z. exists z, 1%Z. split; [exact Z|]. split; [unfold M; lia|]. field. Qed.
Lemma frac_quot a d : (Z.abs a <= M)%Z -> (Z.abs d <= M)%Z -> d <> 0%Z -> small_frac (IZR a / IZR d).
Proof.
  intros A D N. destruct (Z_lt_le_dec 0 d) as [P|P]; [exists a, d; repeat split; auto; lia|]. exists (- a)%Z, (- d)%Z. split; [lia|]. split; [lia|]. rewrite !opp_IZR. field. apply not_0_IZR. exact N.
Qed.
Lemma frac_max x y : small_frac x -> small_frac y -> small_frac (Rmax x y).
Proof. intros X Y. unfold Rmax. destruct (Rle_dec x y); auto. Qed.
Lemma frac_min x y : small_frac x -> small_frac y -> small_frac (Rmin x y).
Proof. intros X Y. unfold Rmin. destruct (Rle_dec x y); auto. Qed.
Lemma MM : / (IZR M * IZR M) = bpow radix2 (-50).
Proof. rewrite <- mult_IZR. reflexivity. Qed.
Lemma rnd_unit x : 0 <= x <= 1 -> Rabs (rnd x - x) <= bpow radix2 (-52).
Proof.
  intros X. eapply Rle_trans; [apply rnd_err|]. rewrite (Rabs_pos_eq x) by lra. assert (H1 : eta64 <= u64) by (apply bpow_le; lia). replace (bpow radix2 (-52)) with (2 * u64) by (unfold u64; change 2 with (bpow radix2 1); rewrite <- bpow_plus; reflexivity). pose proof u_small. nra.
Qed.
Lemma frac_rnd x y : small_frac x -> small_frac y -> 0 <= x -> y <= 1 -> y < x -> rnd y < rnd x.
Proof.
  intros X Y X0 Y1 L. destruct (Rlt_dec 1 x) as [Bx|Bx].
  - (* x > 1 >= y *) pose proof (rnd_mono y 1 Y1) as Ry. rewrite rnd_1 in Ry. assert (G := frac_gap x 1 X (frac_IZR 1 ltac:(unfold M; lia)) Bx). rewrite MM in G.
    assert (K : rnd (1 + bpow radix2 (-50)) <= rnd x) by (apply rnd_mono; lra). assert (F : rnd (1 + bpow radix2 (-50)) = 1 + bpow radix2 (-50)).
    { apply rnd_format. replace (1 + bpow radix2 (-50)) with (F2R (Float radix2 (2 ^ 50 + 1) (-50))). - apply generic_format_FLT. exists (Float radix2 (2 ^ 50 + 1) (-50)); [reflexivity|vm_compute; reflexivity|cbn; lia].
      - unfold F2R. cbn [Fnum Fexp]. rewrite plus_IZR. rewrite Rmult_plus_distr_r, Rmult_1_l. f_equal. change (IZR (2 ^ 50)) with (bpow radix2 50). rewrite <- bpow_plus. reflexivity. }
    pose proof (bpow_gt_0 radix2 (-50)). lra.
  - destruct (Rlt_dec y 0) as [By|By].
    + pose proof (rnd_nonneg x X0) as Rx. assert (G := frac_gap 0 y (frac_IZR 0 ltac:(unfold M; lia)) Y By). rewrite MM in G. assert (K : rnd y <= rnd (- bpow radix2 (-50))) by (apply rnd_mono; lra). rewrite rnd_opp, rnd_bpow in K by lia. pose proof (bpow_gt_0 radix2 (-50)). lra.
    + pose proof (frac_gap x y X Y L) as G. rewrite MM in G. pose proof (rnd_unit x ltac:(lra)) as Ex. pose proof (rnd_unit y ltac:(lra)) as Ey. apply Rabs_le_inv in Ex, Ey.
      replace (bpow radix2 (-50)) with (4 * bpow radix2 (-52)) in G by (change 4 with (bpow radix2 2); rewrite <- bpow_plus; reflexivity). pose proof (bpow_gt_0 radix2 (-52)). lra.
Qed.

Section Exact.
Variable m : libm.
Variable n : nat.
Variable s : segment spec_float.
Variable b : axisbox spec_float.
Notation p1 := (p1 s). Notation p2 := (p2 s). Notation lo := (lo b). Notation hi := (hi b).
Hypothesis D1 : dpoint n (end1 s).
Hypothesis D2 : dpoint n (end2 s).
Hypothesis Dl : dpoint n (low b).
Hypothesis Dh : dpoint n (high b).
Hypothesis Sz : forall i, (i < n)%nat -> Rabs (p1 i) <= bpow radix2 1000 /\ Rabs (p2 i) <= bpow radix2 1000 /\ Rabs (lo i) <= bpow radix2 1000 /\ Rabs (hi i) <= bpow radix2 1000.
Hypothesis Qz : forall i, (i < n)%nat -> p1 i <> p2 i -> Rabs (lo i - p1 i) <= bpow radix2 1000 * Rabs (p2 i - p1 i) /\ Rabs (hi i - p1 i) <= bpow radix2 1000 * Rabs (p2 i - p1 i).
Hypothesis Ex : forall i, (i < n)%nat -> rnd (p2 i - p1 i) = p2 i - p1 i /\ rnd (lo i - p1 i) = lo i - p1 i /\ rnd (hi i - p1 i) = hi i - p1 i.
Definition rlo i := Rmin ((lo i - p1 i) / (p2 i - p1 i)) ((hi i - p1 i) / (p2 i - p1 i)).
Definition rhi i := Rmax ((lo i - p1 i) / (p2 i - p1 i)) ((hi i - p1 i) / (p2 i - p1 i)).
Lemma qmin_exact i : (i < n)%nat -> qmin s b i = rnd (rlo i).
Proof. intros Hi. destruct (Ex i Hi) as (E1 & E2 & E3). unfold qmin, quo, rlo. now rewrite E1, E2, E3, rnd_min. Qed.
Lemma qmax_exact i : (i < n)%nat -> qmax s b i = rnd (rhi i).
Proof. intros Hi. destruct (Ex i Hi) as (E1 & E2 & E3). unfold qmax, quo, rhi. now rewrite E1, E2, E3, rnd_max. Qed.
Lemma between i w : p1 i <> p2 i -> lo i <= hi i -> (rlo i <= w <= rhi i <-> lo i <= p1 i + w * (p2 i - p1 i) <= hi i).
Proof.
  intros N L. unfold rlo, rhi. set (d := p2 i - p1 i). assert (Dz : d <> 0) by (unfold d; lra). set (x := (lo i - p1 i) / d). set (y := (hi i - p1 i) / d). assert (X : lo i - p1 i = x * d) by (unfold x; field; exact Dz). assert (Y : hi i - p1 i = y * d) by (unfold y; field; exact Dz).
  assert (O : x * d <= y * d) by lra. assert (E : lo i <= p1 i + w * d <= hi i <-> x * d <= w * d <= y * d) by lra. rewrite E. destruct (Rtotal_order d 0) as [C|[C|C]]; [|contradiction|].
  - assert (y <= x) by nra. rewrite Rmin_right, Rmax_left by lra. split; intros [U V]; split; nra.
  - assert (x <= y) by nra. rewrite Rmin_left, Rmax_right by lra. split; intros [U V]; split; nra.
Qed.
Lemma between_strict i w : p1 i <> p2 i -> lo i <= hi i -> (rlo i < w < rhi i <-> lo i < p1 i + w * (p2 i - p1 i) < hi i).
Proof.
  intros N L. unfold rlo, rhi. set (d := p2 i - p1 i). assert (Dz : d <> 0) by (unfold d; lra). set (x := (lo i - p1 i) / d). set (y := (hi i - p1 i) / d). assert (X : lo i - p1 i = x * d) by (unfold x; field; exact Dz). assert (Y : hi i - p1 i = y * d) by (unfold y; field; exact Dz).
  assert (O : x * d <= y * d) by lra. assert (E : lo i < p1 i + w * d < hi i <-> x * d < w * d < y * d) by lra. rewrite E. destruct (Rtotal_order d 0) as [C|[C|C]]; [|contradiction|].
  - assert (y <= x) by nra. rewrite Rmin_right, Rmax_left by lra. split; intros [U V]; split; nra.
  - assert (x <= y) by nra. rewrite Rmin_left, Rmax_right by lra. split; intros [U V]; split; nra.
Qed.
Lemma exact_complete w : (forall i, (i < n)%nat -> lo i <= hi i) -> 0 <= w <= 1 -> (forall i, (i < n)%nat -> lo i <= p1 i + w * (p2 i - p1 i) <= hi i) -> i_seg_box (H := B64 m) n s b false = true.
Proof.
  intros O W A. apply core; auto. split.
  - intros i Hi E. apply (flat_inside m n); auto. specialize (A i Hi). rewrite <- E in A. lra.
  - exists (rnd w). split; [split; [apply rnd_nonneg; lra|]; rewrite <- rnd_1; apply rnd_mono; lra|]. intros i Hi N. rewrite (qmin_exact i Hi), (qmax_exact i Hi). apply (between i w N (O i Hi)) in A; [|exact Hi]. split; apply rnd_mono; lra.
Qed.

(** *** Small whole numbers *)
Hypothesis Wh : forall i, (i < n)%nat -> exists a c l h : Z, p1 i = IZR a /\ p2 i = IZR c /\ lo i = IZR l /\ hi i = IZR h /\ (Z.abs a <= 2 ^ 24)%Z /\ (Z.abs c <= 2 ^ 24)%Z /\ (Z.abs l <= 2 ^ 24)%Z /\ (Z.abs h <= 2 ^ 24)%Z.
Lemma frac_ends i : (i < n)%nat -> p1 i <> p2 i -> small_frac (rlo i) /\ small_frac (rhi i).
Proof.
  intros Hi N. destruct (Wh i Hi) as (a & c & l & h & E1 & E2 & E3 & E4 & B1 & B2 & B3 & B4). unfold rlo, rhi. rewrite E1, E2, E3, E4, <- !minus_IZR. assert (c - a <> 0)%Z by (intros Z; apply N; rewrite E1, E2; f_equal; lia).
  assert (F1 : small_frac (IZR (l - a) / IZR (c - a))) by (apply frac_quot; unfold M; lia). assert (F2 : small_frac (IZR (h - a) / IZR (c - a))) by (apply frac_quot; unfold M; lia). split; [now apply frac_min|now apply frac_max].
Qed.
Lemma clip_real proper k : (k <= n)%nat ->
  match clip m s b proper k with
  | None => True
  | Some (mn, mx) => exists x y, val mn = rnd x /\ val mx = rnd y /\ small_frac x /\ small_frac y /\ 0 <= x /\ y <= 1 /\
      (forall w, x <= w <= y <-> 0 <= w <= 1 /\ forall i, (i < k)%nat -> p1 i <> p2 i -> rlo i <= w <= rhi i) /\
      (forall w, x < w < y <-> 0 < w < 1 /\ forall i, (i < k)%nat -> p1 i <> p2 i -> rlo i < w < rhi i)
  end.
Proof.
  induction k as [|k IH]; intros K.
  - cbn [clip seq fold_left]. destruct (zero_fl m) as [_ Vz]. destruct (one_val m) as [_ Vo]. exists 0, 1. rewrite Vz, Vo, rnd_0, rnd_1. split; [reflexivity|]. split; [reflexivity|]. split; [apply (frac_IZR 0); unfold M; lia|]. split; [apply (frac_IZR 1); unfold M; lia|].
    split; [lra|]. split; [lra|]. split; intros w; (split; [intros W; split; [exact W|intros; lia]|intros [W _]; exact W]).
  - rewrite clip_S. pose proof (clip_ok m n s b D1 D2 Dl Dh Sz Qz proper k ltac:(lia)) as Ck. specialize (IH ltac:(lia)). destruct (clip m s b proper k) as [[mn mx]|]; [|exact I].
    destruct Ck as (Fn & Fx & _). destruct IH as (x & y & Vx & Vy & Sx & Sy & X0 & Y1 & C & O). destruct (axis m n s b D1 D2 Dl Dh Sz Qz k proper mn mx ltac:(lia) Fn Fx) as [Ax1 Ax2]. destruct (Req_dec (p1 k) (p2 k)) as [E|E].
    + rewrite (Ax1 E). destruct (off_axis m s b proper k); [exact I|]. exists x, y. repeat (split; [assumption|]).
      split; intros w; [rewrite C|rewrite O]; (split; intros [W A]; (split; [exact W|]); intros i Hi N; [destruct (Nat.eq_dec i k) as [->|]; [contradiction|apply A; auto; lia]|apply A; auto; lia]).
    + destruct (Ax2 E) as (mn' & mx' & -> & Fn' & Fx' & Vn & Vm). destruct (frac_ends k ltac:(lia) E) as [Fl_ Fh]. exists (Rmax x (rlo k)), (Rmin y (rhi k)).
      split; [rewrite Vn, Vx, (qmin_exact k) by lia; now rewrite rnd_max|]. split; [rewrite Vm, Vy, (qmax_exact k) by lia; now rewrite rnd_min|]. split; [now apply frac_max|]. split; [now apply frac_min|].
      pose proof (Rmax_l x (rlo k)). pose proof (Rmax_r x (rlo k)). pose proof (Rmin_l y (rhi k)). pose proof (Rmin_r y (rhi k)). split; [lra|]. split; [lra|]. split; intros w.
      * split.
        -- intros [W1 W2]. destruct (proj1 (C w) ltac:(lra)) as [W A]. split; [exact W|]. intros i Hi N. destruct (Nat.eq_dec i k) as [->|]; [lra|apply A; auto; lia].
        -- intros [W A]. destruct (proj2 (C w)) as [W1 W2]. { split; [exact W|]. intros i Hi N. apply A; auto. } pose proof (A k ltac:(lia) E). split; [apply Rmax_lub; lra|apply Rmin_glb; lra].
      * split.
        -- intros [W1 W2]. destruct (proj1 (O w) ltac:(lra)) as [W A]. split; [exact W|]. intros i Hi N. destruct (Nat.eq_dec i k) as [->|]; [lra|apply A; auto; lia].
        -- intros [W A]. destruct (proj2 (O w)) as [W1 W2]. { split; [exact W|]. intros i Hi N. apply A; auto. } pose proof (A k ltac:(lia) E). split; [apply Rmax_lub_lt; lra|apply Rmin_glb_lt; lra].
Qed.
Lemma whole_flat i : (i < n)%nat -> off_axis m s b false i = false -> lo i <= p1 i <= hi i.
Proof.
  intros Hi E. pose proof (flat_outside m n s b D1 Dl Dh Sz i Hi E) as F. destruct (Wh i Hi) as (a & c & l & h & E1 & _ & E3 & E4 & _). rewrite E1, E3, E4 in *. pose proof u_small as U.
  assert (A : IZR (l - 1) < IZR a) by (rewrite minus_IZR; lra). assert (B : IZR a < IZR (h + 1)) by (rewrite plus_IZR; lra). apply lt_IZR in A, B. split; apply IZR_le; lia.
Qed.
Lemma whole : (forall i, (i < n)%nat -> lo i <= hi i) -> (i_seg_box (H := B64 m) n s b false = true <-> exists w, 0 <= w <= 1 /\ forall i, (i < n)%nat -> lo i <= p1 i + w * (p2 i - p1 i) <= hi i).
Proof.
  intros O. split; [|intros (w & W & A); now apply exact_complete with w]. unfold i_seg_box. change (fold_left _ _ _) with (clip m s b false n). pose proof (clip_ok m n s b D1 D2 Dl Dh Sz Qz false n (le_n n)) as K. pose proof (clip_real false n (le_n n)) as R. destruct (clip m s b false n) as [[mn mx]|]; [|discriminate].
  destruct K as (Fn & Fx & Of & _). destruct R as (x & y & Vx & Vy & Sx & Sy & X0 & Y1 & C & _). unfold less_eq_. cbn [negb nleb B64]. rewrite leb_ok by assumption. intros E. destruct (Rle_bool_spec (val mn) (val mx)) as [L|]; [|discriminate]. rewrite Vx, Vy in L.
  destruct (Rle_dec x y) as [Lxy|Lxy]; [|pose proof (frac_rnd x y Sx Sy X0 Y1 ltac:(lra)); lra]. destruct (proj1 (C x) ltac:(lra)) as [W A]. exists x. split; [exact W|]. intros i Hi. destruct (Req_dec (p1 i) (p2 i)) as [F|F].
  - rewrite <- F. pose proof (whole_flat i Hi (Of i Hi F)). lra.
  - apply between; auto.
Qed.
Lemma whole_proper : (forall i, (i < n)%nat -> lo i <= hi i) -> (i_seg_box (H := B64 m) n s b true = true <-> exists w, 0 < w < 1 /\ forall i, (i < n)%nat -> lo i < p1 i + w * (p2 i - p1 i) < hi i).
Proof.
  intros O. unfold i_seg_box. change (fold_left _ _ _) with (clip m s b true n). pose proof (clip_ok m n s b D1 D2 Dl Dh Sz Qz true n (le_n n)) as K. pose proof (clip_real true n (le_n n)) as R. destruct (clip m s b true n) as [[mn mx]|].
  - destruct K as (Fn & Fx & Of & _). destruct R as (x & y & Vx & Vy & Sx & Sy & X0 & Y1 & _ & C). unfold less_eq_. cbn [negb nltb B64]. rewrite ltb_ok by assumption. rewrite Vx, Vy. split.
    + intros E. destruct (Rlt_bool_spec (rnd x) (rnd y)) as [L|]; [|discriminate]. assert (Lxy : x < y). { destruct (Rlt_dec x y); auto. pose proof (rnd_mono y x ltac:(lra)). lra. }
      destruct (proj1 (C ((x + y) / 2)) ltac:(lra)) as [W A]. exists ((x + y) / 2). split; [exact W|]. intros i Hi. destruct (Req_dec (p1 i) (p2 i)) as [F|F].
      * pose proof (proj1 (flat_proper m n s b D1 Dl Dh i Hi) (Of i Hi F)). rewrite <- F. lra.
      * apply between_strict; auto.
    + intros (w & W & A). assert (Wi : x < w < y). { apply C. split; [exact W|]. intros i Hi N. apply between_strict; auto. } apply Rlt_bool_true. apply frac_rnd; auto; lra.
  - split; [discriminate|]. destruct K as (i & Hi & E & T). intros (w & W & A). specialize (A i Hi). rewrite <- E in A. assert (Z : off_axis m s b true i = false) by (apply (flat_proper m n); auto; lra). rewrite Z in T. discriminate.
Qed.
End Exact.
