(** Polygons in the plane against axis-aligned boxes, in exact arithmetic. *)
From Coq Require Import Reals List Bool Lra Lia Psatz Permutation Classical.
From Flocq Require Import Core.Raux.
From Verif Require Import Base Scalar ConstModel VecModel VecSpec RSpec RLib ConstProofs ShapeSpec ShapeModel PolyModel PolyIntersectModel EvenOddSpec EvenOddProofs RegionSpec RegionProofs PolyShapeProofs.
Import ListNotations.
Open Scope R_scope.
#[local] Existing Instance Rnum | 0.
#[local] Existing Instance eps0.

(** * One side and the four sides of the box *)
Definition betw (a y b : R) : Prop := a <= y < b \/ b <= y < a.
Definition cutv (i0 i1 j0 j1 v : R) : R := i0 + (v - i1) * (j0 - i0) / (j1 - i1).
Lemma betw_sym a y b : betw a y b <-> betw b y a.
Proof. unfold betw. tauto. Qed.
Lemma betw_ne a y b : betw a y b -> b <> a.
Proof. unfold betw. lra. Qed.
Lemma cutv_sym i0 i1 j0 j1 v : j1 <> i1 -> cutv i0 i1 j0 j1 v = cutv j0 j1 i0 i1 v.
Proof. intros N. unfold cutv. field. lra. Qed.
Lemma cutv_at i0 i1 j0 j1 s v : j1 <> i1 -> i1 + s * (j1 - i1) = v -> cutv i0 i1 j0 j1 v = i0 + s * (j0 - i0).
Proof. intros N <-. unfold cutv. field. lra. Qed.

Section Box.
Variables lx ly hx hy : R.
Hypothesis Ox : lx <= hx.
Hypothesis Oy : ly <= hy.
Definition trig (ix iy jx jy : R) : Prop :=
  (betw iy ly jy /\ lx <= cutv ix iy jx jy ly <= hx) \/ (betw ix lx jx /\ ly <= cutv iy ix jy jx lx <= hy) \/
  (betw iy hy jy /\ lx <= cutv ix iy jx jy hy <= hx) \/ (betw ix hx jx /\ ly <= cutv iy ix jy jx hx <= hy).
Definition inb (x y : R) : Prop := lx <= x <= hx /\ ly <= y <= hy.
Lemma trig_sym ix iy jx jy : trig ix iy jx jy <-> trig jx jy ix iy.
Proof.
  assert (K : forall ix iy jx jy, trig ix iy jx jy -> trig jx jy ix iy).
  { intros a b c d T. unfold trig in *. destruct T as [[B C]|[[B C]|[[B C]|[B C]]]]; pose proof (betw_ne _ _ _ B) as N; rewrite (cutv_sym _ _ _ _ _ N) in C; apply betw_sym in B; auto. }
  split; apply K.
Qed.
(** Leaving an interval. *)
Lemma exit1 lo hi a c : lo <= a <= hi ->
  (lo <= c <= hi /\ forall s, 0 <= s <= 1 -> lo <= a + s * (c - a) <= hi) \/
  exists s v, 0 <= s < 1 /\ a + s * (c - a) = v /\ ((v = hi /\ a <= hi < c) \/ (v = lo /\ c < lo <= a)) /\ forall s', 0 <= s' <= s -> lo <= a + s' * (c - a) <= hi.
Proof.
  intros A. destruct (Rle_dec lo c) as [L|L]; [destruct (Rle_dec c hi) as [H|H]|].
  - left. split; auto. intros s S. split; nra.
  - right. set (s := (hi - a) / (c - a)). assert (E : s * (c - a) = hi - a) by (unfold s; field; lra). exists s, hi.
    assert (S0 : 0 <= s) by (unfold s; apply Rle_mult_inv_pos; lra). split; [split; auto; nra|]. split; [lra|]. split; [left; lra|]. intros s' S'. split; nra.
  - right. set (s := (a - lo) / (a - c)). assert (E : s * (a - c) = a - lo) by (unfold s; field; lra). exists s, lo.
    assert (S0 : 0 <= s) by (unfold s; apply Rle_mult_inv_pos; lra). split; [split; auto; nra|]. split; [lra|]. split; [right; lra|]. intros s' S'. split; nra.
Qed.
(** A side that leaves the closed box cuts one of its sides, unless it starts on a low side and goes straight out. *)
Lemma leave ix iy jx jy : inb ix iy -> ~ inb jx jy -> trig ix iy jx jy \/ (ix = lx /\ jx < lx) \/ (iy = ly /\ jy < ly).
Proof.
  intros [Ix Iy] J.
  assert (X : forall s v, 0 <= s < 1 -> ix + s * (jx - ix) = v -> ((v = hx /\ ix <= hx < jx) \/ (v = lx /\ jx < lx <= ix)) -> ly <= iy + s * (jy - iy) <= hy -> trig ix iy jx jy \/ (ix = lx /\ jx < lx)).
  { intros s v S E C W. destruct C as [[-> C]|[-> C]].
    - left. right. right. right. split; [left; lra|]. rewrite (cutv_at _ _ _ _ s) by (auto; lra). auto.
    - destruct (Req_dec ix lx) as [Z|Z]; [right; lra|]. left. right. left. split; [right; lra|]. rewrite (cutv_at _ _ _ _ s) by (auto; lra). auto. }
  assert (Y : forall s v, 0 <= s < 1 -> iy + s * (jy - iy) = v -> ((v = hy /\ iy <= hy < jy) \/ (v = ly /\ jy < ly <= iy)) -> lx <= ix + s * (jx - ix) <= hx -> trig ix iy jx jy \/ (iy = ly /\ jy < ly)).
  { intros s v S E C W. destruct C as [[-> C]|[-> C]].
    - left. right. right. left. split; [left; lra|]. rewrite (cutv_at _ _ _ _ s) by (auto; lra). auto.
    - destruct (Req_dec iy ly) as [Z|Z]; [right; lra|]. left. left. split; [right; lra|]. rewrite (cutv_at _ _ _ _ s) by (auto; lra). auto. }
  destruct (exit1 lx hx ix jx Ix) as [[Jx Rx]|(sx & vx & Sx & Ex & Cx & Rx)], (exit1 ly hy iy jy Iy) as [[Jy Ry]|(sy & vy & Sy & Ey & Cy & Ry)].
  - exfalso. apply J. split; auto.
  - destruct (Y sy vy Sy Ey Cy) as [T|T]; auto. apply Rx. lra.
  - destruct (X sx vx Sx Ex Cx) as [T|T]; auto. apply Ry. lra.
  - destruct (Rle_dec sx sy) as [L|L]; [destruct (X sx vx Sx Ex Cx) as [T|T]|destruct (Y sy vy Sy Ey Cy) as [T|T]]; auto; [apply Ry|apply Rx]; lra.
Qed.
(** Reaching a low side from above it inside the box. *)
Lemma reach_low ix iy jx jy : inb jx jy -> (lx < ix /\ jx = lx) \/ (ly < iy /\ jy = ly) -> trig ix iy jx jy.
Proof.
  intros [Jx Jy] [[I E]|[I E]].
  - right. left. split; [right; lra|]. rewrite (cutv_at _ _ _ _ 1) by lra. lra.
  - left. split; [right; lra|]. rewrite (cutv_at _ _ _ _ 1) by lra. lra.
Qed.
(** A side that goes through the open box and ends outside. *)
Lemma part ix iy jx jy s xx xy : 0 <= s <= 1 -> xx = ix + s * (jx - ix) -> xy = iy + s * (jy - iy) -> trig xx xy jx jy -> trig ix iy jx jy.
Proof.
  intros S Ex Ey T.
  assert (B : forall i j x v, x = i + s * (j - i) -> betw x v j -> betw i v j /\ s <> 1).
  { intros i j x v E [B|B].
    - assert (s <> 1) by (intros ->; lra). split; auto. left. assert (0 < j - x) by lra. replace (j - x) with ((1 - s) * (j - i)) in H0 by (rewrite E; ring). assert (0 < j - i) by nra. nra.
    - assert (s <> 1) by (intros ->; lra). split; auto. right. assert (0 < x - j) by lra. replace (x - j) with ((1 - s) * (i - j)) in H0 by (rewrite E; ring). assert (0 < i - j) by nra. nra. }
  assert (C : forall i0 i1 j0 j1 x0 x1 v, x0 = i0 + s * (j0 - i0) -> x1 = i1 + s * (j1 - i1) -> j1 <> i1 -> s <> 1 -> cutv x0 x1 j0 j1 v = cutv i0 i1 j0 j1 v).
  { intros i0 i1 j0 j1 x0 x1 v E0 E1 N N1. unfold cutv. rewrite E0, E1. assert (j1 - (i1 + s * (j1 - i1)) <> 0). { replace (j1 - (i1 + s * (j1 - i1))) with ((1 - s) * (j1 - i1)) by ring. apply Rmult_integral_contrapositive_currified; lra. } field. split; [lra|auto]. }
  unfold trig in *. destruct T as [[T K]|[[T K]|[[T K]|[T K]]]].
  - destruct (B _ _ _ _ Ey T) as [T' N1]. rewrite (C ix iy jx jy xx xy _ Ex Ey (betw_ne _ _ _ T') N1) in K. auto.
  - destruct (B _ _ _ _ Ex T) as [T' N1]. rewrite (C iy ix jy jx xy xx _ Ey Ex (betw_ne _ _ _ T') N1) in K. auto.
  - destruct (B _ _ _ _ Ey T) as [T' N1]. rewrite (C ix iy jx jy xx xy _ Ex Ey (betw_ne _ _ _ T') N1) in K. auto 6.
  - destruct (B _ _ _ _ Ex T) as [T' N1]. rewrite (C iy ix jy jx xy xx _ Ey Ex (betw_ne _ _ _ T') N1) in K. auto 6.
Qed.
Lemma through_box ix iy jx jy s : 0 <= s <= 1 -> lx < ix + s * (jx - ix) < hx -> ly < iy + s * (jy - iy) < hy -> ~ trig ix iy jx jy -> inb jx jy.
Proof.
  intros S X Y N. apply NNPP. intros J. destruct (leave (ix + s * (jx - ix)) (iy + s * (jy - iy)) jx jy) as [T|[T|T]]; auto; [split; lra| |lra|lra].
  apply N. eapply part; eauto.
Qed.
(** Then, when nothing is cut, both ends are in the box and off its low sides. *)
Definition upper (x y : R) : Prop := lx < x <= hx /\ ly < y <= hy.
Lemma through_upper ix iy jx jy s : 0 <= s <= 1 -> lx < ix + s * (jx - ix) < hx -> ly < iy + s * (jy - iy) < hy -> ~ trig ix iy jx jy -> upper ix iy /\ upper jx jy.
Proof.
  intros S X Y N. pose proof (through_box ix iy jx jy s S X Y N) as J.
  assert (I : inb ix iy). { apply (through_box jx jy ix iy (1 - s)); [lra|lra|lra|]. intros T. apply N. now apply trig_sym. }
  assert (Ax : ix <> lx). { intros Z. destruct (Req_dec jx lx) as [Z'|Z']; [rewrite Z, Z' in X; lra|]. apply N, trig_sym, reach_low; auto. left. destruct J. lra. }
  assert (Bx : jx <> lx). { intros Z. apply N, reach_low; auto. left. destruct I. lra. }
  assert (Ay : iy <> ly). { intros Z. destruct (Req_dec jy ly) as [Z'|Z']; [rewrite Z, Z' in Y; lra|]. apply N, trig_sym, reach_low; auto. right. destruct J. lra. }
  assert (By : jy <> ly). { intros Z. apply N, reach_low; auto. right. destruct I. lra. }
  destruct I, J. split; split; lra.
Qed.
Lemma upper_next ix iy jx jy : upper ix iy -> ~ trig ix iy jx jy -> upper jx jy.
Proof.
  intros [Ux Uy] N. assert (J : inb jx jy). { apply NNPP. intros J. destruct (leave ix iy jx jy) as [T|[T|T]]; auto; [split; lra|lra|lra]. }
  assert (jx <> lx) by (intros Z; apply N, reach_low; auto; left; lra). assert (jy <> ly) by (intros Z; apply N, reach_low; auto; right; lra).
  destruct J. split; lra.
Qed.
End Box.

(** * The loop *)
Lemma between_R a y b : between a y b = true <-> betw a y b.
Proof. unfold between, betw. cbn [nleb nltb Rnum]. rewrite orb_true_iff, !andb_true_iff, !Rleb_iff, !Rltb_iff. tauto. Qed.
Lemma box_cut_R lo hi cut : lo <= hi -> (lo <= cut <= hi -> box_cut lo hi cut false = Some true) /\ (~ lo <= cut <= hi -> box_cut lo hi cut false = None).
Proof.
  intros L. unfold box_cut. cbn [negb]. destruct (equal lo cut neps || equal hi cut neps) eqn:E.
  - split; auto. intros N. exfalso. apply N. apply orb_true_iff in E. destruct E as [E|E]; apply equal_R_exact0 in E; lra.
  - apply orb_false_iff in E. destruct E as [E1 E2]. assert (lo <> cut) by (intros Z; apply (equal_R_exact0 eps0) in Z; change (equal lo cut neps = true) in Z; congruence). assert (hi <> cut) by (intros Z; apply (equal_R_exact0 eps0) in Z; change (equal hi cut neps = true) in Z; congruence).
    cbn [nltb Rnum]. split; intros N; [replace (Rlt_bool lo cut && Rlt_bool cut hi) with true; auto; symmetry; apply andb_true_iff; rewrite !Rltb_iff; lra|].
    replace (Rlt_bool lo cut && Rlt_bool cut hi) with false; auto. symmetry. apply not_true_is_false. rewrite andb_true_iff, !Rltb_iff. lra.
Qed.
Lemma box_cut_c_R lo hi cut : lo <= hi -> (lo <= cut <= hi -> box_cut_c lo hi cut true = Some false) /\ (~ lo <= cut <= hi -> box_cut_c lo hi cut true = None).
Proof.
  intros L. unfold box_cut_c. cbv zeta. destruct (equal lo cut neps || equal hi cut neps) eqn:E.
  - split; auto. intros N. exfalso. apply N. apply orb_true_iff in E. destruct E as [E|E]; apply equal_R_exact0 in E; lra.
  - apply orb_false_iff in E. destruct E as [E1 E2]. assert (lo <> cut) by (intros Z; apply (equal_R_exact0 eps0) in Z; change (equal lo cut neps = true) in Z; congruence). assert (hi <> cut) by (intros Z; apply (equal_R_exact0 eps0) in Z; change (equal hi cut neps = true) in Z; congruence).
    cbn [nltb Rnum andb negb]. split; intros N; [replace (Rlt_bool lo cut && Rlt_bool cut hi) with true; auto; symmetry; apply andb_true_iff; rewrite !Rltb_iff; lra|].
    replace (Rlt_bool lo cut && Rlt_bool cut hi) with false; auto. symmetry. apply not_true_is_false. rewrite andb_true_iff, !Rltb_iff. lra.
Qed.
Definition cuts (b : axisbox R) (e : coords R * coords R) : Prop :=
  trig (co (low b) 0) (co (low b) 1) (co (high b) 0) (co (high b) 1) (co (fst e) 0) (co (fst e) 1) (co (snd e) 0) (co (snd e) 1).
Lemma cuts_swap b e : cuts b (swap e) <-> cuts b e.
Proof. unfold cuts, swap. cbn [fst snd]. apply trig_sym. Qed.

Lemma cut_step b e (f : R -> R -> R -> option bool) (r : bool) : box_ordered 2 b ->
  (forall lo hi c, lo <= hi -> (lo <= c <= hi -> f lo hi c = Some r) /\ (~ lo <= c <= hi -> f lo hi c = None)) ->
  let i := fst e in let j := snd e in let lo := low b in let hi := high b in
  let q := orb_ (if between (co i 1) (co lo 1) (co j 1) then f (co lo 0) (co hi 0) (cutv (co i 0) (co i 1) (co j 0) (co j 1) (co lo 1)) else None)
           (orb_ (if between (co i 0) (co lo 0) (co j 0) then f (co lo 1) (co hi 1) (cutv (co i 1) (co i 0) (co j 1) (co j 0) (co lo 0)) else None)
           (orb_ (if between (co i 1) (co hi 1) (co j 1) then f (co lo 0) (co hi 0) (cutv (co i 0) (co i 1) (co j 0) (co j 1) (co hi 1)) else None)
                 (if between (co i 0) (co hi 0) (co j 0) then f (co lo 1) (co hi 1) (cutv (co i 1) (co i 0) (co j 1) (co j 0) (co hi 0)) else None))) in
  (cuts b e -> q = Some r) /\ (~ cuts b e -> q = None).
Proof.
  intros O F i j lo hi q.
  pose proof (O 0%nat ltac:(lia)) as O0. pose proof (O 1%nat ltac:(lia)) as O1. fold lo hi in O0, O1.
  assert (G : forall l h a v c k, l <= h -> (betw a v c /\ l <= k <= h -> (if between a v c then f l h k else None) = Some r) /\ (~ (betw a v c /\ l <= k <= h) -> (if between a v c then f l h k else None) = None)).
  { intros l h a v c k L. destruct (between a v c) eqn:B.
    - apply between_R in B. destruct (F l h k L) as [F1 F2]. split; [intros [_ ?]; auto|intros N; apply F2; intros K; apply N; auto].
    - split; auto. intros [B' _]. apply between_R in B'. congruence. }
  unfold cuts, trig. fold i j lo hi. unfold q. clear q.
  destruct (G (co lo 0) (co hi 0) (co i 1) (co lo 1) (co j 1) (cutv (co i 0) (co i 1) (co j 0) (co j 1) (co lo 1)) O0) as [A1 A2].
  destruct (G (co lo 1) (co hi 1) (co i 0) (co lo 0) (co j 0) (cutv (co i 1) (co i 0) (co j 1) (co j 0) (co lo 0)) O1) as [B1 B2].
  destruct (G (co lo 0) (co hi 0) (co i 1) (co hi 1) (co j 1) (cutv (co i 0) (co i 1) (co j 0) (co j 1) (co hi 1)) O0) as [C1 C2].
  destruct (G (co lo 1) (co hi 1) (co i 0) (co hi 0) (co j 0) (cutv (co i 1) (co i 0) (co j 1) (co j 0) (co hi 0)) O1) as [D1 D2].
  set (PA := betw (co i 1) (co lo 1) (co j 1) /\ _) in *. set (PB := betw (co i 0) (co lo 0) (co j 0) /\ _) in *. set (PC := betw (co i 1) (co hi 1) (co j 1) /\ _) in *. set (PD := betw (co i 0) (co hi 0) (co j 0) /\ _) in *.
  clearbody PA PB PC PD. split.
  - intros T. destruct (classic PA) as [X|X]; [rewrite A1 by auto; reflexivity|rewrite A2 by auto; cbn [orb_]].
    destruct (classic PB) as [Y|Y]; [rewrite B1 by auto; reflexivity|rewrite B2 by auto; cbn [orb_]].
    destruct (classic PC) as [Z|Z]; [rewrite C1 by auto; reflexivity|rewrite C2 by auto; cbn [orb_]]. apply D1. tauto.
  - intros T. rewrite A2, B2, C2, D2 by tauto. reflexivity.
Qed.
Lemma passes_cut (p : coords R) e : passes p e = between (co (fst e) 1) (co p 1) (co (snd e) 1) && Rlt_bool (co p 0) (cutv (co (fst e) 0) (co (fst e) 1) (co (snd e) 0) (co (snd e) 1) (co p 1)).
Proof.
  unfold passes, spans. change (at_ ?v ?k) with (co v k). cbn [nltb Rnum]. f_equal. f_equal. rewrite cut_R. unfold cutv. f_equal. unfold Rdiv. ring.
Qed.
Lemma loop_cut b es : box_ordered 2 b -> forall hit, (exists e, In e es /\ cuts b e) -> pg2_box_loop (low b) (high b) false es hit = true.
Proof.
  intros O. induction es as [|[i j] es IH]; intros hit (e & I & C); [easy|]. cbn [pg2_box_loop].
  pose proof (cut_step b (i, j) (fun lo hi c => box_cut lo hi c false) true O (fun lo hi c L => box_cut_R lo hi c L)) as S. cbn [fst snd] in S. cbv zeta in S. destruct S as [S1 S2]. change (at_ ?v ?k) with (co v k). cbn [nadd nsub nmul ndiv Rnum].
  unfold cutv in S1, S2. destruct (classic (cuts b (i, j))) as [K|K].
  - rewrite (S1 K). reflexivity.
  - rewrite (S2 K). apply IH. destruct I as [<-|I]; [easy|]. eauto.
Qed.
Lemma loop_no_cut b es : box_ordered 2 b -> forall hit, (forall e, In e es -> ~ cuts b e) -> pg2_box_loop (low b) (high b) false es hit = xorb hit (par (passes (low b)) es).
Proof.
  intros O. induction es as [|[i j] es IH]; intros hit C; [cbn; now rewrite xorb_false_r|]. cbn [pg2_box_loop].
  pose proof (cut_step b (i, j) (fun lo hi c => box_cut lo hi c false) true O (fun lo hi c L => box_cut_R lo hi c L)) as S. cbn [fst snd] in S. cbv zeta in S. destruct S as [S1 S2]. change (at_ ?v ?k) with (co v k). cbn [nadd nsub nmul ndiv Rnum].
  unfold cutv in S1, S2. rewrite (S2 (C (i, j) (or_introl eq_refl))). rewrite IH by (intros; apply C; cbn; auto).
  change (par (passes (low b)) ((i, j) :: es)) with (xorb (passes (low b) (i, j)) (par (passes (low b)) es)). rewrite passes_cut. cbn [fst snd nltb Rnum]. unfold cutv.
  destruct (between _ _ _ && _), hit, (par (passes (low b)) es); reflexivity.
Qed.
Lemma loop_c_cut b es : box_ordered 2 b -> forall hit, (exists e, In e es /\ cuts b e) -> pg2_box_loop_c (low b) (high b) true es hit = false.
Proof.
  intros O. induction es as [|[i j] es IH]; intros hit (e & I & C); [easy|]. cbn [pg2_box_loop_c]. cbv zeta.
  pose proof (cut_step b (i, j) (fun lo hi c => box_cut_c lo hi c true) false O (fun lo hi c L => box_cut_c_R lo hi c L)) as S. cbn [fst snd] in S. cbv zeta in S. destruct S as [S1 S2]. change (at_ ?v ?k) with (co v k). cbn [nadd nsub nmul ndiv Rnum].
  unfold cutv in S1, S2. destruct (classic (cuts b (i, j))) as [K|K].
  - rewrite (S1 K). reflexivity.
  - rewrite (S2 K). apply IH. destruct I as [<-|I]; [easy|]. eauto.
Qed.
Lemma loop_c_no_cut b es : box_ordered 2 b -> forall hit, (forall e, In e es -> ~ cuts b e) -> pg2_box_loop_c (low b) (high b) true es hit = xorb hit (par (passes (low b)) es).
Proof.
  intros O. induction es as [|[i j] es IH]; intros hit C; [cbn; now rewrite xorb_false_r|]. cbn [pg2_box_loop_c]. cbv zeta.
  pose proof (cut_step b (i, j) (fun lo hi c => box_cut_c lo hi c true) false O (fun lo hi c L => box_cut_c_R lo hi c L)) as S. cbn [fst snd] in S. cbv zeta in S. destruct S as [S1 S2]. change (at_ ?v ?k) with (co v k). cbn [nadd nsub nmul ndiv Rnum].
  unfold cutv in S1, S2. pose proof (C (i, j) (or_introl eq_refl)) as K. rewrite (S2 K). rewrite IH by (intros; apply C; cbn; auto).
  change (par (passes (low b)) ((i, j) :: es)) with (xorb (passes (low b) (i, j)) (par (passes (low b)) es)). rewrite passes_cut. cbn [fst snd nltb Rnum]. fold (cutv (co i 0) (co i 1) (co j 0) (co j 1) (co (low b) 1)).
  set (cut := cutv (co i 0) (co i 1) (co j 0) (co j 1) (co (low b) 1)). destruct (between (co i 1) (co (low b) 1) (co j 1)) eqn:B; cbn [andb]; [|now rewrite xorb_false_l].
  replace (equal (co (low b) 0) cut neps || equal (co (high b) 0) cut neps) with false.
  { cbn [negb andb]. destruct (Rlt_bool (co (low b) 0) cut), hit, (par (passes (low b)) es); reflexivity. }
  symmetry. apply not_true_is_false. intros E. apply K. left. cbn [fst snd]. split; [now apply between_R|]. fold cut. pose proof (O 0%nat ltac:(lia)). apply orb_true_iff in E. destruct E as [E|E]; apply equal_R_exact0 in E; lra.
Qed.
