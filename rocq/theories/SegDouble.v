(** Segments and axis boxes of doubles: the clipping loop. *)
From Coq Require Import ZArith NArith Reals Bool SpecFloat Lia Lra List Psatz.
From Flocq Require Import Core IEEE754.BinarySingleNaN.
From Verif Require Import Base Scalar OrdLib RLib B64Lib B64Ops RoundLib RoundProofs RSpec ConstModel VecModel VecSpec ShapeProofs3 BallDouble BoxDouble CoordRound RbDouble OwnDouble.
From Verif Require Import ShapeModel IntersectModel ShapeSpec.
Import ListNotations.
Open Scope R_scope.

Lemma eqb_ok x y : fl x -> fl y -> SFeqb x y = Req_bool (val x) (val y).
Proof.
  intros Fx Fy. pose proof (ltb_ok x y Fx Fy) as L. pose proof (leb_ok x y Fx Fy) as G. unfold SFltb, SFleb, SFeqb in *. destruct (Req_bool_spec (val x) (val y)) as [E|E].
  - rewrite Rlt_bool_false in L by lra. rewrite Rle_bool_true in G by lra. destruct (SFcompare x y) as [[]|]; auto; discriminate.
  - destruct (SFcompare x y) as [[]|]; auto. symmetry in L, G. destruct (Rlt_bool_spec (val x) (val y)); [discriminate|]. destruct (Rle_bool_spec (val x) (val y)); [|discriminate]. exfalso. apply E. lra.
Qed.

Section Seg.
Variable m : libm.
Variable n : nat.
Variable s : segment spec_float.
Variable b : axisbox spec_float.
Hypothesis D1 : dpoint n (end1 s).
Hypothesis D2 : dpoint n (end2 s).
Hypothesis Dl : dpoint n (low b).
Hypothesis Dh : dpoint n (high b).
Definition p1 i := co (dval (end1 s)) i.
Definition p2 i := co (dval (end2 s)) i.
Definition lo i := co (dval (low b)) i.
Definition hi i := co (dval (high b)) i.
Hypothesis Sz : forall i, (i < n)%nat -> Rabs (p1 i) <= bpow radix2 1000 /\ Rabs (p2 i) <= bpow radix2 1000 /\ Rabs (lo i) <= bpow radix2 1000 /\ Rabs (hi i) <= bpow radix2 1000.
Hypothesis Qz : forall i, (i < n)%nat -> p1 i <> p2 i -> Rabs (lo i - p1 i) <= bpow radix2 1000 * Rabs (p2 i - p1 i) /\ Rabs (hi i - p1 i) <= bpow radix2 1000 * Rabs (p2 i - p1 i).
(** the two quotients as they are computed *)
Definition quo (x : nat -> R) i := rnd (rnd (x i - p1 i) / rnd (p2 i - p1 i)).
Definition qmin i := Rmin (quo lo i) (quo hi i).
Definition qmax i := Rmax (quo lo i) (quo hi i).
Definition off_axis (proper : bool) i := less_ (H := B64 m) (at_ (H := B64 m) (end1 s) i) (at_ (H := B64 m) (low b) i) proper || greater_ (H := B64 m) (at_ (H := B64 m) (end1 s) i) (at_ (H := B64 m) (high b) i) proper.

Lemma big_1000 : 16 * bpow radix2 1000 <= big.
Proof. change 16 with (bpow radix2 4). rewrite <- bpow_plus. apply bpow_le. lia. Qed.
Lemma diff_big x y : Rabs x <= bpow radix2 1000 -> Rabs y <= bpow radix2 1000 -> Rabs (x - y) <= big.
Proof. intros X Y. pose proof big_1000. pose proof (bpow_gt_0 radix2 1000). apply Rabs_le_inv in X, Y. apply Rabs_le. lra. Qed.
Lemma diff_err x y : generic_format radix2 (FLT_exp (-1074) 53) x -> generic_format radix2 (FLT_exp (-1074) 53) y -> Rabs (rnd (x - y) - (x - y)) <= u64 * Rabs (x - y).
Proof. intros X Y. apply (rnd_add_err x (- y)); auto. now apply generic_format_opp. Qed.
Lemma fmt i p : (i < n)%nat -> dpoint n p -> generic_format radix2 (FLT_exp (-1074) 53) (co (dval p) i).
Proof. intros Hi D. rewrite (dval_co m). apply fl_format. now apply dp with (n := n). Qed.
Lemma diff_zero x y : generic_format radix2 (FLT_exp (-1074) 53) x -> generic_format radix2 (FLT_exp (-1074) 53) y -> (rnd (x - y) = 0 <-> x = y).
Proof.
  intros X Y. split; [|intros ->; rewrite Rminus_diag_eq by reflexivity; apply rnd_0]. intros E. pose proof (diff_err x y X Y) as R. rewrite E in R. pose proof u_small as U.
  destruct (Req_dec (x - y) 0) as [Z|Z]; [lra|]. apply Rabs_pos_lt in Z. replace (0 - (x - y)) with (- (x - y)) in R by ring. rewrite Rabs_Ropp in R. nra.
Qed.
Lemma rnd_sign_pos x y : generic_format radix2 (FLT_exp (-1074) 53) x -> generic_format radix2 (FLT_exp (-1074) 53) y -> 0 < x - y -> 0 < rnd (x - y).
Proof. intros X Y P. pose proof (rnd_nonneg (x - y) ltac:(lra)) as N. destruct N as [N|N]; [exact N|]. symmetry in N. apply (proj1 (diff_zero x y X Y)) in N. lra. Qed.
Lemma rnd_sign_neg x y : generic_format radix2 (FLT_exp (-1074) 53) x -> generic_format radix2 (FLT_exp (-1074) 53) y -> x - y < 0 -> rnd (x - y) < 0.
Proof. intros X Y P. replace (x - y) with (- (y - x)) by ring. rewrite rnd_opp. pose proof (rnd_sign_pos y x Y X ltac:(lra)). lra. Qed.
Lemma big_quotient a d : generic_format radix2 (FLT_exp (-1074) 53) a -> generic_format radix2 (FLT_exp (-1074) 53) (p1 d) -> generic_format radix2 (FLT_exp (-1074) 53) (p2 d) -> p1 d <> p2 d -> Rabs (a - p1 d) <= bpow radix2 1000 * Rabs (p2 d - p1 d) ->
  Rabs (rnd (a - p1 d) / rnd (p2 d - p1 d)) <= big.
Proof.
  intros A X Y N Q. pose proof u_small as U. pose proof (diff_err _ _ A X) as E1. pose proof (diff_err _ _ Y X) as E2. set (x := a - p1 d) in *. set (y := p2 d - p1 d) in *.
  assert (Y0 : y <> 0) by (unfold y; lra). assert (Yp : 0 < Rabs y) by now apply Rabs_pos_lt. assert (X1 : Rabs (rnd x) <= 2 * Rabs x). { replace (rnd x) with ((rnd x - x) + x) by ring. eapply Rle_trans; [apply Rabs_triang|]. pose proof (Rabs_pos x). nra. }
  assert (Y1 : Rabs y <= 2 * Rabs (rnd y)). { pose proof (Rabs_triang (y - rnd y) (rnd y)) as T. replace (y - rnd y + rnd y) with y in T by ring. rewrite (Rabs_minus_sym y) in T. nra. }
  unfold Rdiv. rewrite Rabs_mult, Rabs_inv. assert (Yr : 0 < Rabs (rnd y)) by lra. apply Rmult_le_reg_r with (Rabs (rnd y)); [exact Yr|]. rewrite Rmult_assoc, Rinv_l, Rmult_1_r by lra.
  pose proof big_1000 as B. pose proof (bpow_gt_0 radix2 1000) as P. eapply Rle_trans; [exact X1|]. apply Rle_trans with (4 * bpow radix2 1000 * Rabs (rnd y)); [|apply Rmult_le_compat_r; lra]. nra.
Qed.

Lemma axis i proper mn mx : (i < n)%nat -> fl mn -> fl mx ->
  (p1 i = p2 i -> seg_box_axis (H := B64 m) s b proper (Some (mn, mx)) i = if off_axis proper i then None else Some (mn, mx)) /\
  (p1 i <> p2 i -> exists mn' mx', seg_box_axis (H := B64 m) s b proper (Some (mn, mx)) i = Some (mn', mx') /\ fl mn' /\ fl mx' /\ val mn' = Rmax (val mn) (qmin i) /\ val mx' = Rmin (val mx) (qmax i)).
Proof.
  intros Hi Fn Fx. destruct (Sz i Hi) as (S1 & S2 & S3 & S4). pose proof (fmt i _ Hi D1) as G1. pose proof (fmt i _ Hi D2) as G2. pose proof (fmt i _ Hi Dl) as G3. pose proof (fmt i _ Hi Dh) as G4.
  unfold p1, p2, lo, hi in S1, S2, S3, S4. rewrite (dval_co m) in S1, S2, S3, S4.
  assert (F1 := dp m n _ i D1 Hi). assert (F2 := dp m n _ i D2 Hi). assert (F3 := dp m n _ i Dl Hi). assert (F4 := dp m n _ i Dh Hi).
  destruct (sub_ok _ _ F2 F1 (diff_big _ _ S2 S1)) as [Fd Vd]. destruct (sub_ok _ _ F3 F1 (diff_big _ _ S3 S1)) as [Fl_ Vl]. destruct (sub_ok _ _ F4 F1 (diff_big _ _ S4 S1)) as [Fh Vh].
  destruct (zero_fl m) as [Fz Vz].
  assert (Eq : neqb (Num := B64 m) (nsub (Num := B64 m) (at_ (H := B64 m) (end2 s) i) (at_ (H := B64 m) (end1 s) i)) (n0 (H := B64 m)) = Req_bool (rnd (p2 i - p1 i)) 0).
  { cbn [neqb nsub B64]. rewrite eqb_ok by assumption. rewrite Vd, Vz. unfold p1, p2. now rewrite !(dval_co m). }
  split; intros C.
  - unfold seg_box_axis. cbv zeta. rewrite Eq, Req_bool_true; [reflexivity|]. apply diff_zero; auto.
  - unfold seg_box_axis. cbv zeta. rewrite Eq. rewrite Req_bool_false by (intros Z; apply (proj1 (diff_zero _ _ G2 G1)) in Z; auto).
    destruct (Qz i Hi C) as [Q1 Q2]. pose proof (big_quotient (lo i) i G3 G1 G2 C Q1) as B1. pose proof (big_quotient (hi i) i G4 G1 G2 C Q2) as B2.
    assert (Nz : rnd (p2 i - p1 i) <> 0) by (intros Z; apply (proj1 (diff_zero _ _ G2 G1)) in Z; auto).
    assert (VD : val (SFsub prec64 emax64 (at_ (H := B64 m) (end2 s) i) (at_ (H := B64 m) (end1 s) i)) = rnd (p2 i - p1 i)) by (rewrite Vd; unfold p1, p2; now rewrite !(dval_co m)).
    assert (VL : val (SFsub prec64 emax64 (at_ (H := B64 m) (low b) i) (at_ (H := B64 m) (end1 s) i)) = rnd (lo i - p1 i)) by (rewrite Vl; unfold p1, lo; now rewrite !(dval_co m)).
    assert (VH : val (SFsub prec64 emax64 (at_ (H := B64 m) (high b) i) (at_ (H := B64 m) (end1 s) i)) = rnd (hi i - p1 i)) by (rewrite Vh; unfold p1, hi; now rewrite !(dval_co m)).
    destruct (div_ok _ _ Fl_ Fd ltac:(now rewrite VD) ltac:(now rewrite VL, VD)) as [Fq1 Vq1]. destruct (div_ok _ _ Fh Fd ltac:(now rewrite VD) ltac:(now rewrite VH, VD)) as [Fq2 Vq2]. rewrite VL, VD in Vq1. rewrite VH, VD in Vq2. fold (quo lo i) in Vq1. fold (quo hi i) in Vq2.
    cbn [nsub ndiv nltb B64]. set (q1 := SFdiv prec64 emax64 _ _) in *. set (q2 := SFdiv prec64 emax64 (SFsub prec64 emax64 (at_ (high b) i) _) _) in *. clearbody q1 q2.
    rewrite (ltb_ok q2 q1) by assumption. unfold qmin, qmax. destruct (Rlt_bool_spec (val q2) (val q1)) as [L|L]; rewrite !ltb_ok by assumption; (eexists; eexists; split; [reflexivity|]).
    + split; [destruct (Rlt_bool (val mn) (val q2)); assumption|]. split; [destruct (Rlt_bool (val q1) (val mx)); assumption|]. rewrite <- Vq1, <- Vq2. split.
      * rewrite Rmin_right by lra. destruct (Rlt_bool_spec (val mn) (val q2)); [now rewrite Rmax_right by lra|now rewrite Rmax_left by lra].
      * rewrite Rmax_left by lra. destruct (Rlt_bool_spec (val q1) (val mx)); [now rewrite Rmin_right by lra|now rewrite Rmin_left by lra].
    + split; [destruct (Rlt_bool (val mn) (val q1)); assumption|]. split; [destruct (Rlt_bool (val q2) (val mx)); assumption|]. rewrite <- Vq1, <- Vq2. split.
      * rewrite Rmin_left by lra. destruct (Rlt_bool_spec (val mn) (val q1)); [now rewrite Rmax_right by lra|now rewrite Rmax_left by lra].
      * rewrite Rmax_right by lra. destruct (Rlt_bool_spec (val q2) (val mx)); [now rewrite Rmin_right by lra|now rewrite Rmin_left by lra].
Qed.

(** the state after the first k axes *)
Definition clip (proper : bool) (k : nat) := fold_left (seg_box_axis (H := B64 m) s b proper) (seq 0 k) (Some (n0 (H := B64 m), n1 (H := B64 m))).
Lemma clip_S proper k : clip proper (S k) = seg_box_axis (H := B64 m) s b proper (clip proper k) k.
Proof. unfold clip. rewrite seq_S, fold_left_app. reflexivity. Qed.
Lemma clip_ok proper k : (k <= n)%nat ->
  match clip proper k with
  | None => exists i, (i < k)%nat /\ p1 i = p2 i /\ off_axis proper i = true
  | Some (mn, mx) => fl mn /\ fl mx /\ (forall i, (i < k)%nat -> p1 i = p2 i -> off_axis proper i = false) /\
      (forall w, val mn <= w <= val mx <-> 0 <= w <= 1 /\ forall i, (i < k)%nat -> p1 i <> p2 i -> qmin i <= w <= qmax i) /\
      (forall w, val mn < w < val mx <-> 0 < w < 1 /\ forall i, (i < k)%nat -> p1 i <> p2 i -> qmin i < w < qmax i)
  end.
Proof.
  induction k as [|k IH]; intros K.
  - cbn [clip seq fold_left]. destruct (zero_fl m) as [Fz Vz]. destruct (one_val m) as [Fo Vo]. rewrite Vz, Vo. split; [exact Fz|]. split; [exact Fo|]. split; [intros; lia|]. split; intros w; (split; [intros W; split; [exact W|intros; lia]|intros [W _]; exact W]).
  - rewrite clip_S. specialize (IH ltac:(lia)). destruct (clip proper k) as [[mn mx]|].
    + destruct IH as (Fn & Fx & Of & C & O). destruct (axis k proper mn mx ltac:(lia) Fn Fx) as [Ax1 Ax2]. destruct (Req_dec (p1 k) (p2 k)) as [E|E].
      * rewrite (Ax1 E). destruct (off_axis proper k) eqn:T; [exists k; repeat split; auto; lia|]. split; [exact Fn|]. split; [exact Fx|]. split.
        { intros i Hi. destruct (Nat.eq_dec i k) as [->|]; [auto|apply Of; lia]. }
        split; intros w; [rewrite C|rewrite O]; (split; intros [W A]; (split; [exact W|]); intros i Hi N; [destruct (Nat.eq_dec i k) as [->|]; [contradiction|apply A; auto; lia]|apply A; auto; lia]).
      * destruct (Ax2 E) as (mn' & mx' & -> & Fn' & Fx' & Vn & Vx). split; [exact Fn'|]. split; [exact Fx'|]. split.
        { intros i Hi H. destruct (Nat.eq_dec i k) as [->|]; [contradiction|apply Of; auto; lia]. }
        rewrite Vn, Vx. split; intros w.
        { split.
          - intros [W1 W2]. pose proof (Rmax_l (val mn) (qmin k)). pose proof (Rmax_r (val mn) (qmin k)). pose proof (Rmin_l (val mx) (qmax k)). pose proof (Rmin_r (val mx) (qmax k)). destruct (proj1 (C w) ltac:(lra)) as [W A]. split; [exact W|]. intros i Hi N. destruct (Nat.eq_dec i k) as [->|]; [lra|apply A; auto; lia].
          - intros [W A]. destruct (proj2 (C w)) as [W1 W2]. { split; [exact W|]. intros i Hi N. apply A; auto. } pose proof (A k ltac:(lia) E). split; [apply Rmax_lub; lra|apply Rmin_glb; lra]. }
        { split.
          - intros [W1 W2]. pose proof (Rmax_l (val mn) (qmin k)). pose proof (Rmax_r (val mn) (qmin k)). pose proof (Rmin_l (val mx) (qmax k)). pose proof (Rmin_r (val mx) (qmax k)). destruct (proj1 (O w) ltac:(lra)) as [W A]. split; [exact W|]. intros i Hi N. destruct (Nat.eq_dec i k) as [->|]; [lra|apply A; auto; lia].
          - intros [W A]. destruct (proj2 (O w)) as [W1 W2]. { split; [exact W|]. intros i Hi N. apply A; auto. } pose proof (A k ltac:(lia) E). split; [apply Rmax_lub_lt; lra|apply Rmin_glb_lt; lra]. }
    + destruct IH as (i & Hi & E & T). exists i. repeat split; auto.
Qed.
Lemma core : i_seg_box (H := B64 m) n s b false = true <->
  (forall i, (i < n)%nat -> p1 i = p2 i -> off_axis false i = false) /\ exists w, 0 <= w <= 1 /\ forall i, (i < n)%nat -> p1 i <> p2 i -> qmin i <= w <= qmax i.
Proof.
  unfold i_seg_box. change (fold_left _ _ _) with (clip false n). pose proof (clip_ok false n (le_n n)) as K. destruct (clip false n) as [[mn mx]|].
  - destruct K as (Fn & Fx & Of & C & _). unfold less_eq_. cbn [negb nleb B64]. rewrite leb_ok by assumption. split.
    + intros E. split; [exact Of|]. exists (val mn). apply C. destruct (Rle_bool_spec (val mn) (val mx)); [lra|discriminate].
    + intros [_ (w & W)]. apply C in W. apply Rle_bool_true. lra.
  - split; [discriminate|]. destruct K as (i & Hi & E & T). intros [Of _]. rewrite (Of i Hi E) in T. discriminate.
Qed.
Lemma core_proper : i_seg_box (H := B64 m) n s b true = true <->
  (forall i, (i < n)%nat -> p1 i = p2 i -> off_axis true i = false) /\ exists w, 0 < w < 1 /\ forall i, (i < n)%nat -> p1 i <> p2 i -> qmin i < w < qmax i.
Proof.
  unfold i_seg_box. change (fold_left _ _ _) with (clip true n). pose proof (clip_ok true n (le_n n)) as K. destruct (clip true n) as [[mn mx]|].
  - destruct K as (Fn & Fx & Of & _ & C). unfold less_eq_. cbn [negb nltb B64]. rewrite ltb_ok by assumption. split.
    + intros E. split; [exact Of|]. exists ((val mn + val mx) / 2). apply C. destruct (Rlt_bool_spec (val mn) (val mx)); [lra|discriminate].
    + intros [_ (w & W)]. apply C in W. apply Rlt_bool_true. lra.
  - split; [discriminate|]. destruct K as (i & Hi & E & T). intros [Of _]. rewrite (Of i Hi E) in T. discriminate.
Qed.

(** ** The error of a quotient *)
Lemma quo_err x i : (i < n)%nat -> generic_format radix2 (FLT_exp (-1074) 53) (x i) -> p1 i <> p2 i -> let d := p2 i - p1 i in Rabs (quo x i * d - (x i - p1 i)) <= 4 * u64 * Rabs (x i - p1 i) + eta64 * Rabs d.
Proof.
  intros Hi X N d. pose proof (fmt i _ Hi D1) as G1. pose proof (fmt i _ Hi D2) as G2. fold (p1 i) in G1. fold (p2 i) in G2. pose proof u_small as U. pose proof eta64_pos as He.
  pose proof (diff_err _ _ X G1) as E1. pose proof (diff_err _ _ G2 G1) as E2. fold d in E2. set (a := x i - p1 i) in *. assert (Dz : d <> 0) by (unfold d; lra). assert (Dp : 0 < Rabs d) by now apply Rabs_pos_lt.
  unfold quo. fold d. fold a. set (y := rnd a / rnd d). pose proof (rnd_err y) as E3.
  assert (Rz : rnd d <> 0) by (intros Z; apply (proj1 (diff_zero _ _ G2 G1)) in Z; auto). assert (Y : y * rnd d = rnd a) by (unfold y; field; exact Rz).
  pose proof (Rabs_pos a) as Pa. pose proof (Rabs_pos y) as Py.
  (* |y d - a| <= 2.5 u |a| *)
  assert (K1 : Rabs (y * d - a) <= u64 * Rabs a + u64 * (Rabs y * Rabs d)).
  { replace (y * d - a) with ((rnd a - a) + - (y * (rnd d - d))) by (rewrite <- Y; ring). eapply Rle_trans; [apply Rabs_triang|]. rewrite Rabs_Ropp, Rabs_mult. apply Rplus_le_compat; [exact E1|]. replace (u64 * (Rabs y * Rabs d)) with (Rabs y * (u64 * Rabs d)) by ring. apply Rmult_le_compat_l; auto. }
  assert (K2 : Rabs y * Rabs d <= Rabs (y * d - a) + Rabs a). { rewrite <- Rabs_mult. replace (y * d) with ((y * d - a) + a) at 1 by ring. apply Rabs_triang. }
  set (z := Rabs y * Rabs d) in *. set (w := Rabs (y * d - a)) in *. assert (Z0 : 0 <= z) by (unfold z; apply Rmult_le_pos; lra).
  assert (Z1 : z <= 11 / 10 * Rabs a) by nra. assert (W : w <= 5 / 2 * u64 * Rabs a) by nra.
  replace (rnd y * d - a) with ((rnd y - y) * d + (y * d - a)) by ring. eapply Rle_trans; [apply Rabs_triang|]. fold w. rewrite Rabs_mult.
  assert (K3 : Rabs (rnd y - y) * Rabs d <= (u64 * Rabs y + eta64) * Rabs d) by (apply Rmult_le_compat_r; lra).
  assert (K4 : u64 * z <= u64 * (11 / 10 * Rabs a)) by (apply Rmult_le_compat_l; lra). replace ((u64 * Rabs y + eta64) * Rabs d) with (u64 * z + eta64 * Rabs d) in K3 by (unfold z; ring). assert (0 <= u64 * Rabs a) by (apply Rmult_le_pos; lra). lra.
Qed.
Lemma quo_order i : (i < n)%nat -> p1 i <> p2 i -> lo i <= hi i -> (0 < p2 i - p1 i /\ quo lo i <= quo hi i) \/ (p2 i - p1 i < 0 /\ quo hi i <= quo lo i).
Proof.
  intros Hi N L. pose proof (fmt i _ Hi D1) as G1. pose proof (fmt i _ Hi D2) as G2. fold (p1 i) in G1. fold (p2 i) in G2.
  assert (M : rnd (lo i - p1 i) <= rnd (hi i - p1 i)) by (apply rnd_mono; lra). unfold quo. destruct (Rtotal_order (p2 i - p1 i) 0) as [D|[D|D]]; [right|lra|left]; (split; [exact D|]); apply rnd_mono; unfold Rdiv.
  - pose proof (rnd_sign_neg _ _ G2 G1 D) as S. apply Rinv_lt_0_compat in S. nra.
  - pose proof (rnd_sign_pos _ _ G2 G1 D) as S. apply Rinv_0_lt_compat in S. nra.
Qed.
Definition gap i := 4 * u64 * Rmax (Rabs (lo i - p1 i)) (Rabs (hi i - p1 i)) + eta64 * Rabs (p2 i - p1 i).
Lemma gap_l i : 4 * u64 * Rabs (lo i - p1 i) + eta64 * Rabs (p2 i - p1 i) <= gap i.
Proof. unfold gap. pose proof u_small. pose proof (Rmax_l (Rabs (lo i - p1 i)) (Rabs (hi i - p1 i))). nra. Qed.
Lemma gap_h i : 4 * u64 * Rabs (hi i - p1 i) + eta64 * Rabs (p2 i - p1 i) <= gap i.
Proof. unfold gap. pose proof u_small. pose proof (Rmax_r (Rabs (lo i - p1 i)) (Rabs (hi i - p1 i))). nra. Qed.
Lemma inside_gap i w : (i < n)%nat -> p1 i <> p2 i -> lo i <= hi i -> lo i + gap i <= p1 i + w * (p2 i - p1 i) <= hi i - gap i -> qmin i <= w <= qmax i.
Proof.
  intros Hi N L [X1 X2]. pose proof (quo_err lo i Hi (fmt i _ Hi Dl) N) as E1. pose proof (quo_err hi i Hi (fmt i _ Hi Dh) N) as E2. cbv zeta in *. pose proof (gap_l i) as G1. pose proof (gap_h i) as G2. apply Rabs_le_inv in E1, E2.
  set (d := p2 i - p1 i) in *. unfold qmin, qmax. destruct (quo_order i Hi N L) as [[D Q]|[D Q]]; fold d in D.
  - rewrite Rmin_left, Rmax_right by lra. assert (quo lo i * d <= w * d) by lra. assert (w * d <= quo hi i * d) by lra. split; apply Rmult_le_reg_r with d; auto.
  - rewrite Rmin_right, Rmax_left by lra. split; apply Ropp_le_cancel; apply Rmult_le_reg_r with (- d); try lra.
Qed.
Lemma inside_gap_strict i w : (i < n)%nat -> p1 i <> p2 i -> lo i <= hi i -> lo i + gap i < p1 i + w * (p2 i - p1 i) < hi i - gap i -> qmin i < w < qmax i.
Proof.
  intros Hi N L [X1 X2]. pose proof (quo_err lo i Hi (fmt i _ Hi Dl) N) as E1. pose proof (quo_err hi i Hi (fmt i _ Hi Dh) N) as E2. cbv zeta in *. pose proof (gap_l i) as G1. pose proof (gap_h i) as G2. apply Rabs_le_inv in E1, E2.
  set (d := p2 i - p1 i) in *. unfold qmin, qmax. destruct (quo_order i Hi N L) as [[D Q]|[D Q]]; fold d in D.
  - rewrite Rmin_left, Rmax_right by lra. split; apply Rmult_lt_reg_r with d; lra.
  - rewrite Rmin_right, Rmax_left by lra. split; apply Ropp_lt_cancel; apply Rmult_lt_reg_r with (- d); lra.
Qed.
Lemma outside_gap i w : (i < n)%nat -> p1 i <> p2 i -> lo i <= hi i -> qmin i <= w <= qmax i -> lo i - gap i <= p1 i + w * (p2 i - p1 i) <= hi i + gap i.
Proof.
  intros Hi N L [W1 W2]. pose proof (quo_err lo i Hi (fmt i _ Hi Dl) N) as E1. pose proof (quo_err hi i Hi (fmt i _ Hi Dh) N) as E2. cbv zeta in *. pose proof (gap_l i) as G1. pose proof (gap_h i) as G2. apply Rabs_le_inv in E1, E2.
  set (d := p2 i - p1 i) in *. unfold qmin, qmax in *. destruct (quo_order i Hi N L) as [[D Q]|[D Q]]; fold d in D.
  - rewrite Rmin_left in W1 by lra. rewrite Rmax_right in W2 by lra. assert (quo lo i * d <= w * d) by (apply Rmult_le_compat_r; lra). assert (w * d <= quo hi i * d) by (apply Rmult_le_compat_r; lra). lra.
  - rewrite Rmin_right in W1 by lra. rewrite Rmax_left in W2 by lra. assert (quo lo i * d <= w * d) by nra. assert (w * d <= quo hi i * d) by nra. lra.
Qed.
(** an axis along which the segment does not extend *)
Lemma flat_inside i : (i < n)%nat -> lo i <= p1 i <= hi i -> off_axis false i = false.
Proof.
  intros Hi [L H]. destruct (Sz i Hi) as (S1 & S2 & S3 & S4). unfold lo, hi, p1, p2 in *. rewrite !(dval_co m) in *. unfold off_axis. rewrite less_greater. pose proof u_small as U.
  rewrite (greater_no m) by (auto using diff_big, (dp m n) || lra). apply (greater_no m); auto using diff_big, (dp m n). lra.
Qed.
Lemma flat_outside i : (i < n)%nat -> off_axis false i = false -> lo i - 61 * u64 <= p1 i <= hi i + 61 * u64.
Proof.
  intros Hi E. destruct (Sz i Hi) as (S1 & S2 & S3 & S4). unfold lo, hi, p1, p2 in *. rewrite !(dval_co m) in *. unfold off_axis in E. rewrite less_greater in E. apply orb_false_elim in E. destruct E as [E1 E2].
  apply greater_yes in E1, E2; auto using diff_big, (dp m n). lra.
Qed.
Lemma flat_proper i : (i < n)%nat -> (off_axis true i = false <-> lo i < p1 i < hi i).
Proof.
  intros Hi. unfold lo, hi, p1, p2 in *. rewrite !(dval_co m). unfold off_axis. rewrite less_greater, !greater_proper by (now apply (dp m n)).
  rewrite orb_false_iff. split.
  - intros [A B]. destruct (Rle_bool_spec (val (at_ (H := B64 m) (end1 s) i)) (val (at_ (H := B64 m) (low b) i))); [discriminate|]. destruct (Rle_bool_spec (val (at_ (H := B64 m) (high b) i)) (val (at_ (H := B64 m) (end1 s) i))); [discriminate|]. lra.
  - intros [A B]. split; apply Rle_bool_false; lra.
Qed.
End Seg.
