(** C72, continued: histories of shifts and turns. *)
From Coq Require Import ZArith NArith Reals Bool SpecFloat Lia Lra List Psatz.
From Flocq Require Import Core IEEE754.BinarySingleNaN.
From Verif Require Import Base Scalar OrdLib RLib B64Lib B64Ops FloatOps RSpec ConstModel VecModel RotModel VecSpec ConstSpec RotSpec RoundSpec RotRoundSpec MatLib
  RoundLib RoundProofs RoundProofs2 RoundProofs3 RoundProofs4 RoundProofs5 BallDouble PropBoxDouble PropQuatDouble2 PropRotDouble RotRound CoordRound PropCoordDouble.
From Verif Require Import ShapeModel PolyModel ShapeSpec.
Import ListNotations.
Open Scope R_scope.

(** A move of a point: a shift by a vector, or a turn by a matrix about a point. *)
Inductive move (A : Type) : Type := Shift (v : vector spec_float) | Turn (M : A) (o : point spec_float).
Arguments Shift {A}. Arguments Turn {A}.
(** What the library does, and what exact arithmetic does with the exact rotation Q. *)
Definition do_move (m : libm) (n : nat) (x : point spec_float) (a : move (rotmatrix spec_float)) : point spec_float :=
  match a with Shift v => vec_add (H := B64 m) n x v | Turn M o => point_rotate (H := B64 m) n x M o end.
Definition exact_move (n : nat) (x : pt) (a : move (nat -> nat -> R)) : pt :=
  match a with Shift v => fun i => x i + rco v i | Turn Q o => turn_about n Q (rco o) x end.
(** The two lists of moves correspond: same shifts, same points, matrices of doubles within e of the rotations; the points are within r of the origin. *)
Definition move_for (m : libm) (n : nat) (e r : R) (a : move (rotmatrix spec_float)) (b : move (nat -> nat -> R)) : Prop :=
  match a, b with
  | Shift v, Shift w => v = w /\ doubles n v
  | Turn M o, Turn Q o' => o = o' /\ doubles n o /\ norm n (rco o) <= r /\ near m n M Q e
  | _, _ => False
  end.
(** The exact point stays within r of the origin. *)
Definition inside (n : nat) (r : R) (x : pt) (bs : list (move (nat -> nat -> R))) : Prop := forall k, norm n (fold_left (exact_move n) (firstn k bs) x) <= r.
(** The error of one move. *)
Definition step (n : nat) (e r : R) : R := INR n * (((6 * INR n + 19) * half_ulp + 3 * INR n * e) * r + 4 * INR n * half_tiny).

Lemma norm_coord_le n f h : 0 <= h -> (forall i, (i < n)%nat -> Rabs (f i) <= h) -> norm n f <= INR n * h.
Proof. intros H F. eapply Rle_trans; [apply (norm_mono n f (fun _ => h)); exact F|now apply norm_const]. Qed.

Lemma pairs_length A B (P : A -> B -> Prop) l k : Forall2 P l k -> length l = length k.
Proof. induction 1; cbn [length]; congruence. Qed.

Section History.
Variable m : libm.
Variable n : nat.
Variables e r : R.
Hypothesis N0 : (0 < n)%nat.
Hypothesis N1 : (Z.of_nat n <= 2 ^ 20)%Z.
Hypothesis E0 : 0 <= e.
Hypothesis E1 : INR n * e <= / 20.
Hypothesis R0 : 0 <= r.
Hypothesis R1 : r <= bpow radix2 970.
Lemma one_move x y a b d : doubles n x -> move_for m n e r a b -> norm n y <= r -> norm n (exact_move n y b) <= r -> norm n (fun i => rco x i - y i) <= d -> d <= r ->
  doubles n (do_move m n x a) /\ norm n (fun i => rco (do_move m n x a) i - exact_move n y b i) <= d + step n e r.
Proof.
  intros Dx F Ny Nb Nd Dr. pose proof u_small as U. pose proof eta64_pos as He. assert (N1' : 1 <= INR n) by (change 1 with (INR 1); now apply le_INR).
  assert (B7 : bpow radix2 970 * 4 <= bpow radix2 980) by (change 4 with (bpow radix2 2); rewrite <- bpow_plus; apply bpow_le; lia).
  assert (B8 : bpow radix2 980 * 1024 = bpow radix2 990) by (change 1024 with (bpow radix2 10); rewrite <- bpow_plus; reflexivity).
  assert (B9 : bpow radix2 990 <= big) by (apply bpow_le; lia). assert (P9 : 0 < bpow radix2 970) by apply bpow_gt_0.
  assert (Nx : norm n (rco x) <= 2 * r). { eapply Rle_trans; [apply (tri n _ y)|]. cbv beta. lra. }
  assert (Ne : 0 <= INR n * e) by (apply Rmult_le_pos; lra). assert (Nu : 0 <= INR n * u64) by (apply Rmult_le_pos; lra). assert (Nt : 0 <= INR n * eta64) by (apply Rmult_le_pos; lra).
  unfold step. change half_ulp with u64. change half_tiny with eta64.
  destruct a as [v|M o], b as [w|Q o']; cbn [move_for] in F; try contradiction.
  - destruct F as [<- Dv]. cbn [do_move exact_move] in *.
    assert (S : forall i, (i < n)%nat -> Rabs (rco x i + rco v i) <= 2 * r).
    { intros i Hi. pose proof (coord_norm n _ i Hi : Rabs (y i + rco v i) <= norm n (fun i => y i + rco v i)) as C1. pose proof (coord_norm n _ i Hi : Rabs (rco x i - y i) <= norm n (fun i => rco x i - y i)) as C2.
      apply (Rle_trans _ _ _ C1) in Nb. apply (Rle_trans _ _ _ C2) in Nd. apply Rabs_le_inv in Nb, Nd. apply Rabs_le. lra. }
    destruct (add_round m n x v Dx Dv) as [Dr' Er]. { intros i Hi. specialize (S i Hi). lra. }
    split; [exact Dr'|]. eapply Rle_trans; [apply (tri n _ (fun i => rco x i - y i))|]. cbv beta. apply Rplus_le_compat; [exact Nd|].
    eapply Rle_trans; [apply (norm_coord_le n _ (2 * u64 * r)); [apply Rmult_le_pos; lra|]|].
    + intros i Hi. rewrite Er by auto. replace (nearest (rco x i + rco v i) - (y i + rco v i) - (rco x i - y i)) with (nearest (rco x i + rco v i) - (rco x i + rco v i)) by ring.
      pose proof (rnd_add_err (rco x i) (rco v i) ltac:(eapply co_fmt; eauto) ltac:(eapply co_fmt; eauto)) as R. change rnd with nearest in R. eapply Rle_trans; [exact R|]. specialize (S i Hi).
      replace (2 * u64 * r) with (u64 * (2 * r)) by ring. apply Rmult_le_compat_l; lra.
    + apply Rmult_le_compat_l; [lra|]. rewrite <- (Rplus_0_r (2 * u64 * r)). apply Rplus_le_compat; [apply Rmult_le_compat_r; lra|lra].
  - destruct F as (<- & Do & Bo & MO). cbn [do_move exact_move] in *.
    destruct (C36_point_matrix_double m n M Q e x o N0 N1 MO E1 Dx Do ltac:(lra) ltac:(lra)) as (_ & _ & Dp & Ep). cbv zeta in Dp, Ep. split; [exact Dp|].
    set (p := point_rotate (H := B64 m) n x M o) in *. change half_ulp with u64 in Ep. change half_tiny with eta64 in Ep.
    assert (ND : norm n (fun i => rco x i - rco o i) <= 3 * r).
    { eapply Rle_trans; [apply (tri n _ (rco x))|]. cbv beta. rewrite (norm_ext n (fun i => rco x i - rco o i - rco x i) (fun i => (-1) * rco o i)) by (intros; ring). rewrite norm_scal_abs, abs_m1. lra. }
    set (h := ((6 * INR n + 19) * u64 + 3 * INR n * e) * r + 4 * INR n * eta64). assert (H0 : 0 <= h) by (unfold h; apply Rplus_le_le_0_compat; [apply Rmult_le_pos; lra|lra]).
    assert (Eh : forall i, (i < n)%nat -> Rabs (rco p i - turn_about n Q (rco o) (rco x) i) <= h).
    { intros i Hi. eapply Rle_trans; [exact (Ep i Hi)|]. unfold h. assert (K : ((2 * INR n + 6) * u64 + INR n * e) * norm n (fun i => rco x i - rco o i) <= ((2 * INR n + 6) * u64 + INR n * e) * (3 * r)) by (apply Rmult_le_compat_l; lra).
      assert (K2 : u64 * norm n (rco o) <= u64 * r) by (apply Rmult_le_compat_l; lra). lra. }
    eapply Rle_trans; [apply (tri n _ (fun i => turn_about n Q (rco o) (rco x) i - turn_about n Q (rco o) y i))|]. cbv beta.
    assert (I : norm n (fun i => turn_about n Q (rco o) (rco x) i - turn_about n Q (rco o) y i) = norm n (fun i => rco x i - y i)).
    { rewrite (norm_ext n _ (A_ n Q (fun j => rco x j - y j))); [apply (A_norm m n M Q e MO)|]. intros i Hi. unfold turn_about, to_parent, A_.
      replace (rco o i + Rsum n (fun j => (rco x j - rco o j) * Q j i) - (rco o i + Rsum n (fun j => (y j - rco o j) * Q j i))) with (Rsum n (fun j => (rco x j - rco o j) * Q j i) + (-1) * Rsum n (fun j => (y j - rco o j) * Q j i)) by ring.
      rewrite <- Rsum_scal_l, <- Rsum_plus. apply Rsum_ext. intros j Hj. ring. }
    rewrite I. apply Rplus_le_compat; [exact Nd|]. apply norm_coord_le; [exact H0|]. intros i Hi.
    replace (rco p i - turn_about n Q (rco o) y i - (turn_about n Q (rco o) (rco x) i - turn_about n Q (rco o) y i)) with (rco p i - turn_about n Q (rco o) (rco x) i) by ring. auto.
Qed.
Lemma history x0 as_ bs : doubles n x0 -> Forall2 (move_for m n e r) as_ bs -> inside n r (rco x0) bs -> INR (length bs) * step n e r <= r ->
  let x := fold_left (do_move m n) as_ x0 in let y := fold_left (exact_move n) bs (rco x0) in
  doubles n x /\ norm n (fun i => rco x i - y i) <= INR (length bs) * step n e r.
Proof.
  intros Dx F. revert as_ F. induction bs as [|b bs IH] using rev_ind; intros as_ F In L; cbv zeta.
  - inversion F; subst. cbn [fold_left length INR]. split; [exact Dx|]. rewrite Rmult_0_l. rewrite (norm_ext n _ (fun _ => 0)) by (intros; ring). eapply Rle_trans; [apply norm_const; lra|]. lra.
  - apply Forall2_app_inv_r in F. destruct F as (l1 & l2 & F1 & F2 & ->). inversion F2 as [|a b' l2' ? Fa F3]; subst. inversion F3; subst.
    rewrite app_length in *. cbn [length] in *. rewrite plus_INR in *. change (INR 1) with 1 in *.
    assert (S0 : 0 <= step n e r). { pose proof u_small. pose proof eta64_pos. pose proof (pos_INR n). unfold step. change half_ulp with u64. change half_tiny with eta64. apply Rmult_le_pos; [lra|]. assert (0 <= INR n * e) by (apply Rmult_le_pos; lra). assert (0 <= INR n * eta64) by (apply Rmult_le_pos; lra). assert (0 <= INR n * u64) by (apply Rmult_le_pos; lra). apply Rplus_le_le_0_compat; [apply Rmult_le_pos; lra|lra]. }
    assert (I1 : inside n r (rco x0) bs).
    { intros k. destruct (Nat.le_gt_cases k (length bs)) as [C|C].
      - specialize (In k). rewrite firstn_app in In. replace (k - length bs)%nat with 0%nat in In by lia. rewrite firstn_O, app_nil_r in In. exact In.
      - specialize (In (length bs)). rewrite firstn_app, Nat.sub_diag, firstn_O, app_nil_r in In. rewrite firstn_all in In. rewrite (firstn_all2 bs) by lia. exact In. }
    destruct (IH l1 F1 I1 ltac:(lra)) as [Dq Eq]. pose proof (In (length (bs ++ [b]))) as I2. rewrite firstn_all, fold_left_app in I2. pose proof (I1 (length bs)) as I3. rewrite firstn_all in I3.
    rewrite !fold_left_app. cbn [fold_left] in *. destruct (one_move _ _ a b (INR (length bs) * step n e r) Dq Fa I3 I2 Eq ltac:(lra)) as [Dz Ez]. split; [exact Dz|]. lra.
Qed.
End History.

(** A point that is shifted and turned, in any order and as often as one likes: its error grows by at most one step with every move. *)
Theorem C72_history : forall (m : libm) n e r x0 moves exact_moves, (0 < n)%nat -> (Z.of_nat n <= 2 ^ 20)%Z -> 0 <= e -> INR n * e <= / 20 -> 0 <= r <= bpow radix2 970 ->
  doubles n x0 -> Forall2 (move_for m n e r) moves exact_moves -> inside n r (rco x0) exact_moves -> INR (length moves) * step n e r <= r ->
  let x := fold_left (do_move m n) moves x0 in let y := fold_left (exact_move n) exact_moves (rco x0) in
  doubles n x /\ dist n (rco x) y <= INR (length moves) * step n e r.
Proof. intros m n e r x0 ma mb N0 N1 E0 E1 [R0 R1] Dx F In L. pose proof (pairs_length _ _ _ _ _ F) as Le. rewrite Le in *. now apply (history m n e r). Qed.
Print Assumptions C72_history.

Lemma dist_norm n a b : dist n a b = norm n (fun i => a i - b i).
Proof. reflexivity. Qed.
Lemma exact_isometry m n e r as_ bs : Forall2 (move_for m n e r) as_ bs -> forall p q, dist n (fold_left (exact_move n) bs p) (fold_left (exact_move n) bs q) = dist n p q.
Proof.
  induction 1 as [|a b as_ bs F Fs IH]; intros p q; [reflexivity|]. cbn [fold_left]. rewrite IH. destruct a as [v|M o], b as [w|Q o']; cbn [move_for] in F; try contradiction; cbn [exact_move]; rewrite !dist_norm.
  - apply norm_ext. intros. ring.
  - destruct F as (<- & _ & _ & MO). rewrite (norm_ext n _ (A_ n Q (fun j => p j - q j))); [apply (A_norm m n M Q e MO)|]. intros i Hi. unfold turn_about, to_parent, A_.
    replace (rco o i + Rsum n (fun j => (p j - rco o j) * Q j i) - (rco o i + Rsum n (fun j => (q j - rco o j) * Q j i))) with (Rsum n (fun j => (p j - rco o j) * Q j i) + (-1) * Rsum n (fun j => (q j - rco o j) * Q j i)) by ring.
    rewrite <- Rsum_scal_l, <- Rsum_plus. apply Rsum_ext. intros j Hj. ring.
Qed.

(** Two points of a body under the same moves: their distance drifts by at most two steps with every move. *)
Theorem C72_rigid : forall (m : libm) n e r x0 w0 moves exact_moves, (0 < n)%nat -> (Z.of_nat n <= 2 ^ 20)%Z -> 0 <= e -> INR n * e <= / 20 -> 0 <= r <= bpow radix2 970 ->
  doubles n x0 -> doubles n w0 -> Forall2 (move_for m n e r) moves exact_moves -> inside n r (rco x0) exact_moves -> inside n r (rco w0) exact_moves -> INR (length moves) * step n e r <= r ->
  let x := fold_left (do_move m n) moves x0 in let w := fold_left (do_move m n) moves w0 in
  Rabs (dist n (rco x) (rco w) - dist n (rco x0) (rco w0)) <= 2 * INR (length moves) * step n e r.
Proof.
  intros m n e r x0 w0 ma mb N0 N1 E0 E1 R0 Dx Dw F Ix Iw L x w. destruct (C72_history m n e r x0 ma mb N0 N1 E0 E1 R0 Dx F Ix L) as [_ H1]. destruct (C72_history m n e r w0 ma mb N0 N1 E0 E1 R0 Dw F Iw L) as [_ H2]. cbv zeta in H1, H2. fold x in H1. fold w in H2.
  pose proof (exact_isometry m n e r ma mb F (rco x0) (rco w0)) as I. set (y := fold_left (exact_move n) mb (rco x0)) in *. set (z := fold_left (exact_move n) mb (rco w0)) in *. rewrite <- I.
  pose proof (dist_triangle n (rco x) y (rco w)) as T1. pose proof (dist_triangle n y z (rco w)) as T2. pose proof (dist_triangle n y (rco x) z) as T3. pose proof (dist_triangle n (rco x) (rco w) z) as T4.
  pose proof (dist_sym n z (rco w)). pose proof (dist_sym n y (rco x)). apply Rabs_le. lra.
Qed.
Print Assumptions C72_rigid.

(** The same moves of a segment, and of a line or polygon of the plane given by its corners. *)
Definition move_segment (m : libm) (n : nat) (s : segment spec_float) (a : move (rotmatrix spec_float)) : segment spec_float :=
  match a with Shift v => seg_shift (H := B64 m) n s v | Turn M o => seg_rotate_point (H := B64 m) n s M o end.
Definition move_corners (m : libm) (n : nat) (l : list (point spec_float)) (a : move (rotmatrix spec_float)) : list (point spec_float) :=
  match a with Shift v => poly_shift (H := B64 m) n l v | Turn M o => poly_rotate_point (H := B64 m) n l M o end.
Lemma move_segment_ends m n moves s : fold_left (move_segment m n) moves s = mkS (fold_left (do_move m n) moves (end1 s)) (fold_left (do_move m n) moves (end2 s)).
Proof. revert s. induction moves as [|a l IH]; intros s; [now destruct s|]. cbn [fold_left]. rewrite IH. now destruct a. Qed.
Lemma move_corners_map m n moves l : fold_left (move_corners m n) moves l = map (fold_left (do_move m n) moves) l.
Proof. revert l. induction moves as [|a mv IH]; intros l; [symmetry; apply map_id|]. cbn [fold_left]. rewrite IH. destruct a; cbn [move_corners]; unfold poly_shift, poly_rotate_point; rewrite map_map; reflexivity. Qed.

(** A segment keeps its length, and the corners of a line or polygon their distances, to within two steps for every move. *)
Theorem C72_bodies : forall (m : libm) n e r moves exact_moves, (0 < n)%nat -> (Z.of_nat n <= 2 ^ 20)%Z -> 0 <= e -> INR n * e <= / 20 -> 0 <= r <= bpow radix2 970 ->
  Forall2 (move_for m n e r) moves exact_moves -> INR (length moves) * step n e r <= r ->
  (forall s, doubles n (end1 s) -> doubles n (end2 s) -> inside n r (rco (end1 s)) exact_moves -> inside n r (rco (end2 s)) exact_moves ->
     let t := fold_left (move_segment m n) moves s in Rabs (dist n (rco (end1 t)) (rco (end2 t)) - dist n (rco (end1 s)) (rco (end2 s))) <= 2 * INR (length moves) * step n e r) /\
  (forall l, (forall c, In c l -> doubles n c /\ inside n r (rco c) exact_moves) ->
     let t := fold_left (move_corners m n) moves l in length t = length l /\
     forall i j c d c' d', nth_error l i = Some c -> nth_error l j = Some d -> nth_error t i = Some c' -> nth_error t j = Some d' ->
       Rabs (dist n (rco c') (rco d') - dist n (rco c) (rco d)) <= 2 * INR (length moves) * step n e r).
Proof.
  intros m n e r ma mb N0 N1 E0 E1 R0 F L. split.
  - intros s D1 D2 I1 I2 t. unfold t. rewrite move_segment_ends. cbn [end1 end2]. now apply (C72_rigid m n e r _ _ ma mb).
  - intros l A t. unfold t. rewrite move_corners_map. split; [apply map_length|]. intros i j c d c' d' Hc Hd Hc' Hd'. rewrite nth_error_map in Hc', Hd'. unfold point in *. rewrite Hc in Hc'. rewrite Hd in Hd'. injection Hc' as <-. injection Hd' as <-.
    destruct (A c (nth_error_In _ _ Hc)) as [Dc Ic]. destruct (A d (nth_error_In _ _ Hd)) as [Dd Id]. now apply (C72_rigid m n e r _ _ ma mb).
Qed.
Print Assumptions C72_bodies.

(** Turning a point about another one again and again, by a rotation matrix of any angle: a thousand million turns are within the hypotheses. *)
Example C72_history_example : forall theta : spec_float, exists m X Q, rot_plane (H := B64 m) 3 1 2 theta = Ret X /\
  let e := 4 * half_ulp in let r := 2 * norm 3 (rco v349) in
  0 <= e /\ INR 3 * e <= / 20 /\ 0 <= r <= bpow radix2 970 /\ doubles 3 (mkC [b64_ofZ 0; b64_ofZ 0; b64_ofZ 0] true) /\
  forall k, INR k <= 1000000000 -> Forall2 (move_for m 3 e r) (repeat (Turn X v349) k) (repeat (Turn Q v349) k) /\
    inside 3 r (rco (mkC [b64_ofZ 0; b64_ofZ 0; b64_ofZ 0] true)) (repeat (Turn Q v349) k) /\ INR (length (repeat (Turn X v349) k)) * step 3 e r <= r.
Proof.
  intros theta. destruct (C36_double_example theta) as (m & X & Q & EX & NX & E1 & _ & _ & Dv & _). exists m, X, Q. split; [exact EX|]. intros e r. pose proof u_small as U. pose proof length_349 as L. unfold e, r in *. change half_ulp with u64 in *.
  split; [lra|]. split; [exact E1|]. split. { split; [lra|]. apply Rle_trans with (bpow radix2 20); [unfold bpow; change (Z.pow_pos radix2 20) with 1048576%Z; lra|apply bpow_le; lia]. }
  split. { split; [reflexivity|]. cbn [el]. repeat (constructor; [apply dfin; vm_compute; auto|]). constructor. }
  intros k Hk. split; [|split].
  - clear Hk. induction k as [|k IH]; cbn [repeat]; constructor; auto. cbn [move_for]. split; [reflexivity|]. split; [exact Dv|]. split; [lra|exact NX].
  - intros j. set (x := rco (mkC [b64_ofZ 0; b64_ofZ 0; b64_ofZ 0] true)).
    assert (Zx : forall i, (i < 3)%nat -> x i = 0) by (intros i Hi; destruct i as [|[|[|i]]]; [reflexivity|reflexivity|reflexivity|lia]).
    assert (I : dist 3 (fold_left (exact_move 3) (firstn j (repeat (Turn Q v349) k)) x) (rco v349) = norm 3 (rco v349)).
    { assert (G : forall l y, Forall (eq (Turn Q v349)) l -> dist 3 (fold_left (exact_move 3) l y) (rco v349) = dist 3 y (rco v349)).
      { induction l as [|a l IH]; intros y F; [reflexivity|]. inversion F as [|? ? <- F']; subst. cbn [fold_left]. rewrite IH by assumption. cbn [exact_move]. rewrite !dist_norm.
        rewrite (norm_ext 3 _ (A_ 3 Q (fun j => y j - rco v349 j))); [apply (A_norm m 3 X Q _ NX)|]. intros i Hi. unfold turn_about, to_parent, A_. ring. }
      rewrite G. { rewrite dist_norm, (norm_ext 3 (fun i => x i - rco v349 i) (fun i => (-1) * rco v349 i)) by (intros i Hi; rewrite Zx by auto; ring). rewrite norm_scal_abs, abs_m1. ring. }
      apply Forall_forall. intros z Hz. symmetry. apply (repeat_spec k). rewrite <- (firstn_skipn j (repeat _ k)). apply in_or_app. now left. }
    eapply Rle_trans; [apply (tri 3 _ (rco v349))|]. rewrite <- dist_norm, I. lra.
  - rewrite repeat_length. unfold step. change half_ulp with u64. change half_tiny with eta64.
    assert (He : eta64 <= u64) by (apply bpow_le; lia). pose proof eta64_pos as Hp. assert (S : 0 <= 3 * (((6 * 3 + 19) * u64 + 3 * 3 * (4 * u64)) * (2 * norm 3 (rco v349)) + 4 * 3 * eta64) <= 1000 * u64 * norm 3 (rco v349)) by nra.
    replace (INR 3) with 3 by (cbn [INR]; ring). pose proof (pos_INR k). apply Rle_trans with (1000000000 * (1000 * u64 * norm 3 (rco v349))); [apply Rmult_le_compat; lra|]. nra.
Qed.
