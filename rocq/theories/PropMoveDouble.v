(** C72: moving shapes of doubles, any number of times. *)
From Coq Require Import ZArith NArith Reals Bool SpecFloat Lia Lra List Psatz.
From Flocq Require Import Core IEEE754.BinarySingleNaN.
From Flocq Require Import Sterbenz.
From Verif Require Import Base Scalar OrdLib RLib B64Lib B64Ops FloatOps RSpec ConstModel VecModel RotModel VecSpec ConstSpec RoundSpec
  RoundLib RoundProofs RoundProofs2 RoundProofs3 RoundProofs4 RoundProofs5 BallDouble PropBoxDouble RotRound CoordRound.
From Verif Require Import ShapeModel PolyModel ShapeSpec.
Import ListNotations.
Open Scope R_scope.

(** How far a list of moves goes along axis i, exactly. *)
Fixpoint gone (vs : list (vector spec_float)) (i : nat) : R := match vs with [] => 0 | v :: r => rco v i + gone r i end.
(** On the way, after each of the moves, the exact place of a point that starts at x is within M of the origin along every axis. *)
Definition stays (n : nat) (M : R) (x : pt) (vs : list (vector spec_float)) : Prop :=
  forall k i, (i < n)%nat -> Rabs (x i + gone (firstn k vs) i) <= M.
(** The error of k moves. *)
Definition drift (k : nat) (M : R) : R := (INR k + 1) * half_ulp * M.

Lemma gone_app a b i : gone (a ++ b) i = gone a i + gone b i.
Proof. induction a as [|v a IH]; cbn [gone app]; [ring|]. rewrite IH. ring. Qed.
Section Points.
Variable m : libm.
Variable n : nat.
Variable M : R.
Hypothesis HM : M <= bpow radix2 1000.
Lemma walk p vs : doubles n p -> Forall (doubles n) vs -> (Z.of_nat (length vs) <= 2 ^ 26)%Z -> stays n M (rco p) vs ->
  let q := fold_left (fun x v => vec_add (H := B64 m) n x v) vs p in
  doubles n q /\ forall i, (i < n)%nat -> Rabs (rco q i - (rco p i + gone vs i)) <= (up (length vs) - 1) * M.
Proof.
  intros Dp. induction vs as [|v vs IH] using rev_ind; intros Dv L St; cbn zeta.
  - cbn [fold_left gone length]. split; [exact Dp|]. intros i Hi. unfold up. cbn [pow]. replace (rco p i - (rco p i + 0)) with 0 by ring. rewrite Rabs_R0. lra.
  - rewrite fold_left_app. cbn [fold_left]. rewrite app_length in *. cbn [length] in *. apply Forall_app in Dv. destruct Dv as [Dv Dx]. pose proof (Forall_inv Dx) as Dl. clear Dx.
    destruct IH as [Dq Eq]; auto; [lia| |].
    { intros k i Hi. destruct (Nat.le_gt_cases k (length vs)) as [C|C].
      - specialize (St k i Hi). rewrite firstn_app in St. replace (k - length vs)%nat with 0%nat in St by lia. rewrite firstn_O, app_nil_r in St. exact St.
      - specialize (St (length vs) i Hi). rewrite firstn_app, Nat.sub_diag, firstn_O, app_nil_r in St. rewrite firstn_all in St. rewrite (firstn_all2 vs) by (apply Nat.lt_le_incl; exact C). exact St. }
    set (q := fold_left (fun x v => vec_add (H := B64 m) n x v) vs p) in *.
    assert (X : forall i, (i < n)%nat -> Rabs (rco p i + gone (vs ++ [v]) i) <= M). { intros i Hi. specialize (St (length (vs ++ [v])) i Hi). rewrite firstn_all in St. exact St. }
    pose proof (up_small (length vs) ltac:(lia)) as [U1 U2]. pose proof (up_ge1 (length vs)) as U3. pose proof (up_ge1 (S (length vs))) as U4.
    assert (Sm : forall i, (i < n)%nat -> Rabs (rco q i + rco v i) <= M * up (length vs)).
    { intros i Hi. specialize (Eq i Hi). specialize (X i Hi). rewrite gone_app in X. cbn [gone] in X. apply Rabs_le_inv in Eq, X. apply Rabs_le. lra. }
    assert (M0 : forall i, (i < n)%nat -> 0 <= M). { intros i Hi. eapply Rle_trans; [apply Rabs_pos|apply (X i Hi)]. }
    destruct (add_round m n q v Dq Dl) as [Dr Er].
    { intros i Hi. eapply Rle_trans; [exact (Sm i Hi)|]. specialize (M0 i Hi). apply Rle_trans with (bpow radix2 1000 * 2); [apply Rmult_le_compat; lra|]. change 2 with (bpow radix2 1). rewrite <- bpow_plus. apply bpow_le. lia. }
    split; [exact Dr|]. intros i Hi. rewrite Er by auto. specialize (Eq i Hi). specialize (Sm i Hi). specialize (M0 i Hi). rewrite gone_app. cbn [gone].
    pose proof (rnd_add_err (rco q i) (rco v i) ltac:(eapply co_fmt; eauto) ltac:(eapply co_fmt; eauto)) as R. change rnd with nearest in R. pose proof u_small as U.
    assert (R2 : u64 * Rabs (rco q i + rco v i) <= u64 * (M * up (length vs))) by (apply Rmult_le_compat_l; lra).
    rewrite Nat.add_comm. cbn [plus]. rewrite up_S. apply Rabs_le_inv in Eq, R. apply Rabs_le.
    replace (((1 + u64) * up (length vs) - 1) * M) with ((up (length vs) - 1) * M + u64 * (M * up (length vs))) by ring. lra.
Qed.
End Points.

(** A point that is shifted again and again ends within the drift of where exact arithmetic would put it. *)
Theorem C72_points : forall (m : libm) n M p vs, M <= bpow radix2 1000 -> doubles n p -> Forall (doubles n) vs -> (Z.of_nat (length vs) <= 2 ^ 26)%Z -> stays n M (rco p) vs ->
  let q := fold_left (fun x v => vec_add (H := B64 m) n x v) vs p in
  doubles n q /\ forall i, (i < n)%nat -> Rabs (rco q i - (rco p i + gone vs i)) <= drift (length vs) M.
Proof.
  intros m n M p vs HM Dp Dv L St q. destruct (walk m n M HM p vs Dp Dv L St) as [Dq Eq]. split; [exact Dq|]. intros i Hi. eapply Rle_trans; [exact (Eq i Hi)|].
  unfold drift. change half_ulp with u64. apply Rmult_le_compat_r; [|apply up_small; lia]. eapply Rle_trans; [apply Rabs_pos|apply (St 0%nat i Hi)].
Qed.
Print Assumptions C72_points.
Lemma one_stays n p v : (forall i, (i < n)%nat -> Rabs (rco p i) <= 1000) -> (forall i, (i < n)%nat -> Rabs (rco v i) <= 1) -> forall k, (k <= 1000)%nat -> stays n 2000 (rco p) (repeat v k).
Proof.
  intros P V k Hk j i Hi. specialize (P i Hi). specialize (V i Hi). assert (G : forall a, Rabs (gone (repeat v a) i) <= INR a).
  { induction a as [|a IH]; [cbn [repeat gone]; rewrite Rabs_R0; cbn [INR]; lra|]. cbn [repeat gone]. rewrite S_INR. eapply Rle_trans; [apply Rabs_triang|]. lra. }
  assert (F : firstn j (repeat v k) = repeat v (Nat.min j k)). { clear. revert k. induction j as [|j IH]; intros [|k]; cbn [repeat firstn Nat.min]; auto. now rewrite IH. }
  match goal with |- context[firstn ?a ?b] => change (firstn a b) with (firstn j (repeat v k)) end. rewrite F. eapply Rle_trans; [apply Rabs_triang|]. specialize (G (Nat.min j k)). assert (INR (Nat.min j k) <= 1000). { rewrite INR_IZR_INZ. apply IZR_le. lia. } lra.
Qed.
(** A thousand moves of a point. *)
Example C72_points_example : let p := D2 1 2 in let vs := repeat (D2 1 0) 1000 in
  doubles 2 p /\ Forall (doubles 2) vs /\ (Z.of_nat (length vs) <= 2 ^ 26)%Z /\ stays 2 2000 (rco p) vs /\ 2000 <= bpow radix2 1000.
Proof.
  cbv zeta. assert (D : forall x y, fl (b64_ofZ x) -> fl (b64_ofZ y) -> doubles 2 (D2 x y)) by (intros x y X Y; split; [reflexivity|]; apply Forall_cons; [now apply fl_iff|apply Forall_cons; [now apply fl_iff|apply Forall_nil]]).
  split; [apply D; split; reflexivity|]. split; [apply Forall_forall; intros v Hv; apply repeat_spec in Hv; subst v; apply D; split; reflexivity|]. split; [rewrite repeat_length; lia|]. split.
  - apply one_stays; [| |lia]; intros [|[|i]] Hi; try lia; unfold rco, D2; cbn [el nth]; change real with val; rewrite ?v0, ?v1, ?v2; apply Rabs_le; lra.
  - apply Rle_trans with (bpow radix2 11); [change (bpow radix2 11) with 2048; lra|apply bpow_le; lia].
Qed.

(** * Shapes.  [moved n p q vs M]: q is p, moved by vs, up to the drift. *)
Definition moved (n : nat) (p q : point spec_float) (vs : list (vector spec_float)) (M : R) : Prop :=
  doubles n q /\ forall i, (i < n)%nat -> Rabs (rco q i - (rco p i + gone vs i)) <= drift (length vs) M.
Section Shapes.
Variable m : libm.
Variable n : nat.
Variable M : R.
Variable vs : list (vector spec_float).
Hypothesis HM : M <= bpow radix2 1000.
Hypothesis Dv : Forall (doubles n) vs.
Hypothesis L : (Z.of_nat (length vs) <= 2 ^ 26)%Z.
Notation path := (fold_left (fun x v => vec_add (H := B64 m) n x v) vs).
Lemma path_moved p : doubles n p -> stays n M (rco p) vs -> moved n p (path p) vs M.
Proof. intros Dp St. now apply C72_points. Qed.
Lemma box_path b : fold_left (fun x v => box_shift (H := B64 m) n x v) vs b = mkB (path (low b)) (path (high b)).
Proof. clear Dv L. revert b. induction vs as [|v l IH]; intros b; [destruct b; reflexivity|]. cbn [fold_left]. rewrite IH. reflexivity. Qed.
Lemma seg_path s : fold_left (fun x v => seg_shift (H := B64 m) n x v) vs s = mkS (path (end1 s)) (path (end2 s)).
Proof. clear Dv L. revert s. induction vs as [|v l IH]; intros b; [destruct b; reflexivity|]. cbn [fold_left]. rewrite IH. reflexivity. Qed.
Lemma ball_path b : fold_left (fun x v => ball_shift (H := B64 m) n x v) vs b = mkBall (path (center b)) (radius b).
Proof. clear Dv L. revert b. induction vs as [|v l IH]; intros b; [destruct b; reflexivity|]. cbn [fold_left]. rewrite IH. reflexivity. Qed.
Lemma rb_path r : fold_left (fun x v => rb_shift (H := B64 m) n x v) vs r = mkRB (path (corner0 r)) (rsize r) (orient r).
Proof. clear Dv L. revert r. induction vs as [|v l IH]; intros b; [destruct b; reflexivity|]. cbn [fold_left]. rewrite IH. reflexivity. Qed.
Lemma list_path l : fold_left (fun x v => poly_shift (H := B64 m) n x v) vs l = map path l.
Proof. clear Dv L. revert l. induction vs as [|v r IH]; intros l; [cbn [fold_left]; now rewrite map_id|]. cbn [fold_left]. rewrite IH. unfold poly_shift. rewrite map_map. reflexivity. Qed.
End Shapes.
Lemma path_le (m : libm) n M p q vs : M <= bpow radix2 1000 -> doubles n p -> doubles n q -> Forall (doubles n) vs -> (Z.of_nat (length vs) <= 2 ^ 26)%Z -> stays n M (rco p) vs -> stays n M (rco q) vs ->
  (forall i, (i < n)%nat -> rco p i <= rco q i) -> forall i, (i < n)%nat ->
  rco (fold_left (fun x v => vec_add (H := B64 m) n x v) vs p) i <= rco (fold_left (fun x v => vec_add (H := B64 m) n x v) vs q) i.
Proof.
  intros HM Dp Dq. induction vs as [|v vs IH] using rev_ind; intros Dv L Sp Sq O i Hi; [cbn [fold_left]; auto|].
  assert (P : forall x, stays n M (rco x) (vs ++ [v]) -> stays n M (rco x) vs).
  { intros x St k j Hj. destruct (Nat.le_gt_cases k (length vs)) as [C|C].
    - specialize (St k j Hj). rewrite firstn_app in St. replace (k - length vs)%nat with 0%nat in St by lia. rewrite firstn_O, app_nil_r in St. exact St.
    - specialize (St (length vs) j Hj). rewrite firstn_app, Nat.sub_diag, firstn_O, app_nil_r in St. rewrite firstn_all in St. rewrite (firstn_all2 vs) by (apply Nat.lt_le_incl; exact C). exact St. }
  rewrite app_length in L. cbn [length] in L. apply Forall_app in Dv. destruct Dv as [Dv Dx]. pose proof (Forall_inv Dx) as Dl. rewrite !fold_left_app. cbn [fold_left].
  specialize (IH Dv ltac:(lia) (P p Sp) (P q Sq) O). 
  assert (G : forall x, doubles n x -> stays n M (rco x) (vs ++ [v]) -> let y := fold_left (fun x v => vec_add (H := B64 m) n x v) vs x in doubles n y /\ forall j, (j < n)%nat -> Rabs (rco y j + rco v j) <= big).
  { intros x Dx' Sx. cbv zeta. destruct (walk m n M HM x vs Dx' Dv ltac:(lia) (P x Sx)) as [Dy Ey]. split; [exact Dy|]. intros j Hj. specialize (Ey j Hj). pose proof (Sx (length (vs ++ [v])) j Hj) as X. rewrite firstn_all, gone_app in X. cbn [gone] in X.
    pose proof (up_small (length vs) ltac:(lia)) as [U1 U2]. assert (M0 : 0 <= M) by (eapply Rle_trans; [apply Rabs_pos|exact X]).
    assert (B : (up (length vs) - 1) * M <= 1 * M) by (apply Rmult_le_compat_r; lra). assert (Bg : bpow radix2 1000 * 2 <= big) by (change 2 with (bpow radix2 1); rewrite <- bpow_plus; apply bpow_le; lia).
    apply Rabs_le_inv in Ey, X. apply Rabs_le. lra. }
  destruct (G p Dp Sp) as [D1 B1]. destruct (G q Dq Sq) as [D2' B2]. destruct (add_round m n _ v D1 Dl B1) as [_ E1]. destruct (add_round m n _ v D2' Dl B2) as [_ E2]. rewrite E1, E2 by auto.
  change nearest with rnd. apply rnd_mono. specialize (IH i Hi). lra.
Qed.

(** Axis boxes, segments, balls, rotated boxes and lists of corners (Line, Polygon<2>) that are shifted again and again: every corner drifts as little;
    a box stays a box, radii, sizes and orientations stay as they are. *)
Theorem C72_shift : forall (m : libm) n M vs, M <= bpow radix2 1000 -> Forall (doubles n) vs -> (Z.of_nat (length vs) <= 2 ^ 26)%Z ->
  (forall b : axisbox spec_float, doubles n (low b) -> doubles n (high b) -> stays n M (rco (low b)) vs -> stays n M (rco (high b)) vs ->
     let b' := fold_left (fun x v => box_shift (H := B64 m) n x v) vs b in
     moved n (low b) (low b') vs M /\ moved n (high b) (high b') vs M /\ (box_ordered n (dbox b) -> box_ordered n (dbox b'))) /\
  (forall s : segment spec_float, doubles n (end1 s) -> doubles n (end2 s) -> stays n M (rco (end1 s)) vs -> stays n M (rco (end2 s)) vs ->
     let s' := fold_left (fun x v => seg_shift (H := B64 m) n x v) vs s in moved n (end1 s) (end1 s') vs M /\ moved n (end2 s) (end2 s') vs M) /\
  (forall b : ball spec_float, doubles n (center b) -> stays n M (rco (center b)) vs ->
     let b' := fold_left (fun x v => ball_shift (H := B64 m) n x v) vs b in moved n (center b) (center b') vs M /\ radius b' = radius b) /\
  (forall r : rotbox spec_float, doubles n (corner0 r) -> stays n M (rco (corner0 r)) vs ->
     let r' := fold_left (fun x v => rb_shift (H := B64 m) n x v) vs r in moved n (corner0 r) (corner0 r') vs M /\ rsize r' = rsize r /\ orient r' = orient r) /\
  (forall l : list (point spec_float), Forall (fun p => doubles n p /\ stays n M (rco p) vs) l ->
     let l' := fold_left (fun x v => poly_shift (H := B64 m) n x v) vs l in Forall2 (fun p q => moved n p q vs M) l l').
Proof.
  intros m n M vs HM Dv L. split; [|split; [|split; [|split]]].
  - intros b D1 D2' S1 S2. cbv zeta. rewrite box_path. cbn [low high]. split; [now apply path_moved|]. split; [now apply path_moved|]. intros O i Hi. unfold dbox. cbn [low high].
    assert (C : forall p, co (dval p) i = rco p i) by (intros p; unfold co, dval, rco; cbn [el]; change 0 with (val (S754_zero false)); rewrite map_nth; reflexivity). rewrite !C.
    apply (path_le m n M); auto. intros j Hj. specialize (O j Hj). unfold dbox in O. cbn [low high] in O. unfold co, dval in O. cbn [el] in O. change 0 with (val (S754_zero false)) in O. rewrite !map_nth in O. exact O.
  - intros s D1 D2' S1 S2. cbv zeta. rewrite seg_path. cbn [end1 end2]. split; now apply path_moved.
  - intros b D S. cbv zeta. rewrite ball_path. cbn [center radius]. split; [now apply path_moved|reflexivity].
  - intros r D S. cbv zeta. rewrite rb_path. cbn [corner0 rsize orient]. split; [now apply path_moved|auto].
  - intros l F. cbv zeta. rewrite list_path. induction F as [|p l [Dp Sp] _ IH]; cbn [map]; constructor; auto. now apply path_moved.
Qed.
Print Assumptions C72_shift.

(** * Moving a corner to a point *)
Lemma sum_format x y : generic_format radix2 (FLT_exp (-1074) 53) x -> generic_format radix2 (FLT_exp (-1074) 53) y -> y / 2 <= x <= 2 * y -> generic_format radix2 (FLT_exp (-1074) 53) (x - y).
Proof. intros Fx Fy H. apply sterbenz; auto; try apply FLT_exp_valid; try reflexivity. apply FLT_exp_monotone. Qed.
Lemma land_close c p : generic_format radix2 (FLT_exp (-1074) 53) c -> generic_format radix2 (FLT_exp (-1074) 53) p ->
  Rabs (rnd (c + rnd (p - c)) - p) <= u64 * (Rabs p + 2 * Rabs (p - c)) /\ (c / 2 <= p <= 2 * c -> rnd (c + rnd (p - c)) = p).
Proof.
  intros Fc Fp. pose proof u_small as U. assert (Fd : generic_format radix2 (FLT_exp (-1074) 53) (rnd (p - c))) by (rewrite rnd_FLT; apply generic_format_round; [apply FLT_exp_valid; reflexivity|apply valid_rnd_N]). split.
  - pose proof (rnd_add_err p (- c) Fp ltac:(now apply generic_format_opp)) as E1. fold (p - c) in E1. pose proof (rnd_add_err c (rnd (p - c)) Fc Fd) as E2.
    set (d := rnd (p - c)) in *. assert (A : Rabs (c + d) <= Rabs p + u64 * Rabs (p - c)). { replace (c + d) with (p + (d - (p - c))) by ring. eapply Rle_trans; [apply Rabs_triang|]. lra. }
    assert (B : u64 * Rabs (c + d) <= u64 * (Rabs p + u64 * Rabs (p - c))) by (apply Rmult_le_compat_l; lra). pose proof (Rabs_pos (p - c)) as P0.
    assert (C : u64 * (u64 * Rabs (p - c)) <= u64 * Rabs (p - c)). { apply Rmult_le_compat_l; [lra|]. rewrite <- (Rmult_1_l (Rabs (p - c))) at 2. apply Rmult_le_compat_r; lra. }
    replace (rnd (c + d) - p) with ((rnd (c + d) - (c + d)) + (d - (p - c))) by ring. eapply Rle_trans; [apply Rabs_triang|]. lra.
  - intros H. assert (E : rnd (p - c) = p - c). { rewrite rnd_FLT. apply round_generic; [apply valid_rnd_N|]. now apply sum_format. } rewrite E. replace (c + (p - c)) with p by ring. rewrite rnd_FLT. apply round_generic; [apply valid_rnd_N|exact Fp].
Qed.
(** Where the point c lands when it is moved to p along axis i. *)
Definition lands (n : nat) (c p q : point spec_float) : Prop := forall i, (i < n)%nat ->
  Rabs (rco q i - rco p i) <= half_ulp * (Rabs (rco p i) + 2 * Rabs (rco p i - rco c i)) /\
  (rco c i / 2 <= rco p i <= 2 * rco c i -> rco q i = rco p i).
Definition within (n : nat) (M : R) (p : point spec_float) : Prop := forall i, (i < n)%nat -> Rabs (rco p i) <= M.
Lemma land (m : libm) n c p : doubles n c -> doubles n p -> within n (bpow radix2 1000) c -> within n (bpow radix2 1000) p ->
  doubles n (vec_add (H := B64 m) n c (vec_sub (H := B64 m) n p c)) /\ lands n c p (vec_add (H := B64 m) n c (vec_sub (H := B64 m) n p c)).
Proof.
  intros Dc Dp Bc Bp. assert (Bg : bpow radix2 1000 * 4 <= big) by (change 4 with (bpow radix2 2); rewrite <- bpow_plus; apply bpow_le; lia).
  destruct (sub_round m n p c Dp Dc) as [Dd Ed]. { intros i Hi. specialize (Bc i Hi). specialize (Bp i Hi). apply Rabs_le_inv in Bc, Bp. apply Rabs_le. lra. }
  assert (Bd : forall i, (i < n)%nat -> Rabs (rco (vec_sub (H := B64 m) n p c) i) <= bpow radix2 1001). { intros i Hi. rewrite Ed by auto. change nearest with rnd. apply rnd_abs_le; [lia|]. change 1001%Z with (1000 + 1)%Z. rewrite bpow_plus. change (bpow radix2 1) with 2. specialize (Bc i Hi). specialize (Bp i Hi). apply Rabs_le_inv in Bc, Bp. apply Rabs_le. lra. }
  destruct (add_round m n c _ Dc Dd) as [Dq Eq]. { intros i Hi. specialize (Bd i Hi). specialize (Bc i Hi). change 1001%Z with (1000 + 1)%Z in Bd. rewrite bpow_plus in Bd. change (bpow radix2 1) with 2 in Bd. apply Rabs_le_inv in Bd, Bc. apply Rabs_le. lra. }
  split; [exact Dq|]. intros i Hi. rewrite Eq, Ed by auto. change nearest with rnd. change half_ulp with u64. apply land_close; eapply co_fmt; eauto.
Qed.
Lemma corner_shift (m : libm) n (b : axisbox spec_float) v k i : (i < n)%nat -> rco (box_corner (H := B64 m) n (box_shift (H := B64 m) n b v) k) i = rco (vec_add (H := B64 m) n (box_corner (H := B64 m) n b k) v) i.
Proof.
  intros Hi. unfold box_corner. destruct (k <? 1)%N; [reflexivity|]. destruct (_ <=? k)%N; [reflexivity|]. unfold box_shift, vec_add. cbn [low high]. rewrite !rco_tab by auto. rewrite !co_at. cbn [el]. rewrite !nth_tab by auto. rewrite !co_at. destruct (N.testbit k (N.of_nat i)); reflexivity.
Qed.
Theorem C72_move_corner : forall (m : libm) n p, doubles n p -> within n (bpow radix2 1000) p ->
  (forall (b : axisbox spec_float) k, doubles n (low b) -> doubles n (high b) -> within n (bpow radix2 1000) (low b) -> within n (bpow radix2 1000) (high b) ->
     lands n (box_corner (H := B64 m) n b k) p (box_corner (H := B64 m) n (box_move_corner (H := B64 m) n b p k) k)) /\
  (forall (r : rotbox spec_float) r', doubles n (corner0 r) -> within n (bpow radix2 1000) (corner0 r) -> rb_move_corner (H := B64 m) n r p 0 = Ret r' ->
     lands n (corner0 r) p (corner0 r') /\ rsize r' = rsize r /\ orient r' = orient r) /\
  (forall (l l' : list (point spec_float)) k c c', Forall (fun x => doubles n x /\ within n (bpow radix2 1000) x) l -> poly_move_corner_to (H := B64 m) n l p k = Ret l' ->
     nth_error l k = Some c -> nth_error l' k = Some c' -> lands n c p c') /\
  (forall (s s' : segment spec_float) k, seg_move_corner (H := B64 m) n s p k = Ret s' -> seg_corner s' k = p) /\
  (forall b : ball spec_float, center (ball_move_center b p) = p).
Proof.
  intros m n p Dp Bp. split; [|split; [|split; [|split]]].
  - intros b k D1 D2' B1 B2. set (c := box_corner (H := B64 m) n b k).
    assert (C : doubles n c /\ within n (bpow radix2 1000) c).
    { unfold c, box_corner. destruct (k <? 1)%N; [split; auto|]. destruct (_ <=? k)%N; [split; auto|]. split.
      - apply doubles_tab. intros i Hi. destruct (N.testbit k (N.of_nat i)); rewrite co_at; eapply co_fl; eauto.
      - intros i Hi. rewrite rco_tab by auto. destruct (N.testbit k (N.of_nat i)); rewrite co_at, rco_val; auto. }
    destruct C as [Dc Bc]. destruct (land m n c p Dc Dp Bc Bp) as [_ La]. intros i Hi. unfold box_move_corner. rewrite corner_shift by auto. fold c. now apply La.
  - intros r r' Dc Bc E. unfold rb_move_corner, rb_corner in E. destruct (0 <? 2 ^ N.of_nat n)%N; [|discriminate]. cbn [oassert obind N.eqb] in E. injection E as <-. cbn [rb_shift corner0 rsize orient]. split; [|auto]. now apply land.
  - intros l l' k c c' F E Ec Ec'. unfold poly_move_corner_to in E. unfold poly_corner, oget in E. rewrite Ec in E. cbn [obind] in E. injection E as <-. unfold poly_shift in Ec'. rewrite nth_error_map in Ec'. unfold point in *. rewrite Ec in Ec'. cbn [option_map] in Ec'. injection Ec' as <-.
    rewrite Forall_forall in F. destruct (F c (nth_error_In _ _ Ec)) as [Dc Bc]. now apply land.
  - intros s s' k E. unfold seg_move_corner in E. destruct ((k =? 0)%N || (k =? 1)%N); [|discriminate]. cbn [oassert] in E. cbv zeta in E. injection E as <-. unfold seg_corner. destruct (k =? 0)%N; reflexivity.
  - intros b. reflexivity.
Qed.
Print Assumptions C72_move_corner.
Example C72_move_corner_example : doubles 2 (D2 9 3) /\ within 2 (bpow radix2 1000) (D2 9 3) /\ doubles 2 (D2 1 2) /\ within 2 (bpow radix2 1000) (D2 1 2) /\
  forall m : libm, exists l', poly_move_corner_to (H := B64 m) 2 [D2 1 2; D2 3 9] (D2 9 3) 1 = Ret l' /\ nth_error l' 1 = Some (D2 9 3).
Proof.
  assert (D : forall x y, fl (b64_ofZ x) -> fl (b64_ofZ y) -> doubles 2 (D2 x y)) by (intros x y X Y; split; [reflexivity|]; apply Forall_cons; [now apply fl_iff|apply Forall_cons; [now apply fl_iff|apply Forall_nil]]).
  assert (B : 16 <= bpow radix2 1000) by (change 16 with (bpow radix2 4); apply bpow_le; lia).
  split; [apply D; split; reflexivity|]. split; [|split; [apply D; split; reflexivity|split]].
  - intros [|[|i]] Hi; try lia; unfold rco, D2; cbn [el nth]; change real with val; rewrite ?v3, ?v9; apply Rabs_le; lra.
  - intros [|[|i]] Hi; try lia; unfold rco, D2; cbn [el nth]; change real with val; rewrite ?v1, ?v2; apply Rabs_le; lra.
  - intros m. eexists. split; [vm_compute; reflexivity|vm_compute; reflexivity].
Qed.
(** moveCornerTo(p, 0) need not put corner 0 at p: here p is 2^-60 along the axis and the corner ends at 0. *)
Theorem C72_move_corner_refuted : forall m : libm, exists (b : axisbox spec_float) p, doubles 1 (low b) /\ doubles 1 (high b) /\ box_valid b = true /\ doubles 1 p /\
  0 < rco p 0 /\ rco (box_corner (H := B64 m) 1 (box_move_corner (H := B64 m) 1 b p 0) 0) 0 = 0.
Proof.
  intros m. set (p := mkC [S754_finite false 4503599627370496 (-112)] true). exists (mkB (mkC [b64_ofZ 1] true) (mkC [b64_ofZ 2] true)), p. cbn [low high].
  do 2 (split; [split; [reflexivity|]; apply Forall_cons; [apply fl_iff; split; reflexivity|apply Forall_nil]|]). split; [reflexivity|]. split; [split; [reflexivity|]; apply Forall_cons; [apply fl_iff; split; reflexivity|apply Forall_nil]|].
  split; [|vm_compute; reflexivity]. unfold rco, p. cbn [el nth]. unfold real, SF2R, Defs.F2R. cbn [Defs.Fnum Defs.Fexp SpecFloat.cond_Zopp]. apply Rmult_lt_0_compat; [apply IZR_lt; reflexivity|apply bpow_gt_0].
Qed.
Print Assumptions C72_move_corner_refuted.
(** A box can collapse: [0,1] shifted by 2^60 and back is the point 0 (its corners were within the drift, which is 2^8 here). *)
Theorem C72_there_and_back_refuted : forall m : libm, exists (b : axisbox spec_float) v w, doubles 1 (low b) /\ doubles 1 (high b) /\ doubles 1 v /\ doubles 1 w /\ rco v 0 + rco w 0 = 0 /\
  rco (low b) 0 < rco (high b) 0 /\ let b' := box_shift (H := B64 m) 1 (box_shift (H := B64 m) 1 b v) w in rco (low b') 0 = rco (high b') 0.
Proof.
  intros m. exists (mkB (mkC [b64_ofZ 0] true) (mkC [b64_ofZ 1] true)), (mkC [b64_ofZ (2 ^ 60)] true), (mkC [b64_ofZ (- 2 ^ 60)] true). cbn [low high].
  do 4 (split; [split; [reflexivity|]; apply Forall_cons; [apply fl_iff; split; reflexivity|apply Forall_nil]|]). split.
  - unfold rco. cbn [el nth]. set (x := b64_ofZ (2 ^ 60)). set (y := b64_ofZ (- 2 ^ 60)). vm_compute in x. vm_compute in y. unfold x, y, real, SF2R, Defs.F2R. cbn [Defs.Fnum Defs.Fexp SpecFloat.cond_Zopp]. rewrite opp_IZR. ring.
  - split; [unfold rco; cbn [el nth]; change real with val; rewrite v0, v1; lra|]. vm_compute. reflexivity.
Qed.
Print Assumptions C72_there_and_back_refuted.
