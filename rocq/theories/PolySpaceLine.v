(** Polygons in space whose corners are on one line or at one point, against boxes, in exact arithmetic. *)
From Coq Require Import Reals List Bool Lra Lia Psatz Classical.
From Flocq Require Import Core.Raux.
From Verif Require Import Base Scalar ConstModel VecModel RotModel QuatModel VecSpec RSpec RotSpec RLib MatLib VecProofs VecProofs4 ConstProofs ShapeSpec ShapeModel IntersectModel ShapeProofs ShapeProofs2 ShapeProofs3 BallProofs RotProofs2 RotProofs3 RbProofs RbProofs2 SegProofs2 PropBox PropMotion PolyModel PolySpec PolyProofs PolyIntersectModel EvenOddSpec EvenOddProofs RegionSpec RegionProofs PolyShapeProofs MotionProofs2 SpaceSpec PolySpaceProofs PolySpaceProofs4 PolySpaceProofs5 PropSeg.
Import ListNotations.
Open Scope R_scope.
#[local] Existing Instance Rnum | 0.
#[local] Existing Instance eps0.

(** ** The line and the box *)
Section Line.
Variable o : porient R.
Variable b : axisbox R.
Let e i := co (porigin o) i.
Let d i := co (pax0 o) i.
Let l i := co (low b) i.
Let h i := co (high b) i.
Definition allows (proper : bool) (i : nat) (t : R) : Prop := if proper then l i < e i + t * d i < h i else l i <= e i + t * d i <= h i.
Definition within (proper : bool) (bounds : option (R * R)) (t : R) : Prop :=
  match bounds with None => True | Some (mn, mx) => if proper then mn < t < mx else mn <= t <= mx end.
Lemma line_axis proper i bounds : l i <= h i ->
  match line_box_axis o b proper (Some bounds) i with
  | None => forall t, ~ allows proper i t
  | Some bounds' => (forall t, within proper bounds' t <-> within proper bounds t /\ allows proper i t) /\ (bounds' = None -> bounds = None /\ d i = 0)
  end.
Proof.
  intros O. unfold line_box_axis. rewrite !at_co. cbn [nsub neqb ndiv nltb Rnum]. unfold n0. cbn [nofZ Rnum].
  change (co (pax0 o) i) with (d i). change (co (porigin o) i) with (e i). change (co (low b) i) with (l i). change (co (high b) i) with (h i).
  destruct (Req_bool_spec (d i) (IZR 0)) as [Z|Z]; change (IZR 0) with 0 in Z.
  - destruct (_ || _) eqn:T.
    + intros t K. unfold allows in K. rewrite Z, Rmult_0_r, Rplus_0_r in K. apply orb_true_iff in T.
      destruct proper; destruct T as [T|T]; apply Bool.not_false_iff_true in T; apply T; [apply (less_proper 0)|apply (greater_proper 0)|apply (less_false 0)|apply (greater_false 0)]; unfold eps0, epsilon; lra.
    + apply orb_false_iff in T. destruct T as [T1 T2]. split; [|auto]. intros t. split; [|tauto]. intros X. split; auto. unfold allows. rewrite Z, Rmult_0_r, Rplus_0_r.
      destruct proper; [apply (less_proper 0) in T1; apply (greater_proper 0) in T2|apply (less_false 0) in T1; apply (greater_false 0) in T2]; unfold eps0, epsilon in *; lra.
  - pose proof (axis_bounds (l i) (h i) (e i) (d i)) as A. cbv zeta in A. set (lo := (l i - e i) / d i) in *. set (hi := (h i - e i) / d i) in *.
    assert (B : exists a c, (if Rlt_bool hi lo then (hi, lo) else (lo, hi)) = (a, c) /\ forall t, (if proper then a < t < c else a <= t <= c) <-> allows proper i t).
    { destruct (Rlt_bool hi lo); eexists _, _; (split; [reflexivity|]); intros t; destruct (A t O Z) as [A1 A2]; unfold allows; destruct proper; auto. }
    destruct B as (a & c & -> & B). destruct bounds as [[mn mx]|]; (split; [|discriminate]); intros t; rewrite <- B; cbn [within]; [|tauto].
    destruct (Rlt_bool_spec mn a), (Rlt_bool_spec c mx); destruct proper; lra.
Qed.
Lemma line_fold proper : forall L bounds, (forall i, In i L -> l i <= h i) ->
  match fold_left (line_box_axis o b proper) L (Some bounds) with
  | None => forall t, ~ (forall i, In i L -> allows proper i t)
  | Some bounds' => (forall t, within proper bounds' t <-> within proper bounds t /\ forall i, In i L -> allows proper i t) /\ (bounds' = None -> bounds = None /\ forall i, In i L -> d i = 0)
  end.
Proof.
  induction L as [|i L IH]; intros bounds O; cbn [fold_left].
  - split; [|intros ->; split; auto; intros i []]. intros t. split; [intros X; split; auto; intros i []|tauto].
  - pose proof (line_axis proper i bounds (O i (or_introl eq_refl))) as A. destruct (line_box_axis o b proper (Some bounds) i) as [b1|].
    + destruct A as [A1 A2]. specialize (IH b1 (fun j Hj => O j (or_intror Hj))). destruct (fold_left _ L _) as [b2|].
      * destruct IH as [I1 I2]. split.
        -- intros t. rewrite I1, A1. split; [intros [[X Y] Z]; split; auto; intros j [<-|Hj]; auto|]. intros [X Y]. split; [split; auto; apply Y; now left|]. intros j Hj. apply Y. now right.
        -- intros E. destruct (I2 E) as [E1 E2]. destruct (A2 E1) as [E3 E4]. split; auto. intros j [<-|Hj]; auto.
      * intros t Y. apply (IH t). intros j Hj. apply Y. now right.
    + assert (N : fold_left (line_box_axis o b proper) L None = None) by (clear; induction L; auto). rewrite N. intros t Y. apply (A t). apply Y. now left.
Qed.
Lemma line_box_ok n proper : box_ordered n b -> norm2 n (co (pax0 o)) = 1 ->
  exists r, line_box n o b proper = Ret r /\ (r <> None <-> exists t, forall i, (i < n)%nat -> allows proper i t).
Proof.
  intros O N. unfold line_box. pose proof (line_fold proper (seq 0 n) None) as F. destruct (fold_left _ _ _) as [[[mn mx]|]|].
  - destruct F as [F _]; [intros i Hi; apply in_seq in Hi; apply O; lia|]. eexists. split; [reflexivity|]. cbn [within] in F.
    assert (Q : less_eq_ mn mx proper = true <-> exists t, if proper then mn < t < mx else mn <= t <= mx).
    { destruct proper; [rewrite (less_eq_proper 0)|rewrite (less_eq_false 0)]; (split; [intros X|intros (t & X); lra]); [exists ((mn + mx) / 2); lra|exists mn; lra]. }
    assert (Q2 : (exists t, forall i, (i < n)%nat -> allows proper i t) <-> less_eq_ mn mx proper = true).
    { rewrite Q. split; intros (t & T); exists t; [apply F; split; auto; intros i Hi; apply in_seq in Hi; apply T; lia|]. intros i Hi. apply F; [exact T|apply in_seq; lia]. }
    rewrite Q2. destruct (less_eq_ mn mx proper); split; congruence.
  - destruct F as [_ F]; [intros i Hi; apply in_seq in Hi; apply O; lia|]. destruct (F eq_refl) as [_ Z]. exfalso. assert (norm2 n (co (pax0 o)) = 0); [|lra].
    unfold norm2, inner. apply Rsum_zero. intros i Hi. change (co (pax0 o) i) with (d i). rewrite Z by (apply in_seq; lia). ring.
  - exists None. split; [reflexivity|]. split; [congruence|]. intros (t & T). exfalso. apply (F (fun i Hi => O i (proj1 (in_seq0 n i) Hi)) t). intros i Hi. apply T. now apply in_seq0.
Qed.
End Line.

(** ** An open box that meets a segment meets it between its ends *)
Lemma open_step (lo hi a d : nat -> R) n : (forall i, (i < n)%nat -> lo i < a i < hi i) ->
  exists r, 0 < r <= 1 / 2 /\ forall t, 0 <= t <= r -> forall i, (i < n)%nat -> lo i < (1 - t) * a i + t * d i < hi i.
Proof.
  induction n as [|n IH]; intros H; [exists (1 / 2); split; [lra|]; intros; lia|]. destruct IH as (r & R1 & R2); [intros i Hi; apply H; lia|].
  destruct (H n ltac:(lia)) as [L U]. set (w := Rabs (d n - a n) + 1). assert (W : 1 <= w) by (unfold w; pose proof (Rabs_pos (d n - a n)); lra).
  set (g := Rmin (a n - lo n) (hi n - a n)). assert (G : 0 < g <= a n - lo n /\ g <= hi n - a n) by (unfold g, Rmin; destruct (Rle_dec (a n - lo n) (hi n - a n)); lra).
  set (q := g / w / 2). assert (Q : 0 < q) by (unfold q; repeat apply Rdiv_lt_0_compat; lra).
  exists (Rmin r q). split; [split; [now apply Rmin_glb_lt|pose proof (Rmin_l r q); lra]|]. intros t [T1 T2] i Hi.
  pose proof (Rmin_l r q). pose proof (Rmin_r r q). destruct (Nat.eq_dec i n) as [->|Ni]; [|apply R2; [lra|lia]].
  assert (K : Rabs (t * (d n - a n)) < g). { rewrite Rabs_mult, (Rabs_pos_eq t) by lra. apply Rle_lt_trans with (q * w); [apply Rmult_le_compat; try lra; [apply Rabs_pos|unfold w; lra]|]. replace (q * w) with (g / 2) by (unfold q; field; lra). lra. }
  apply Rabs_def2 in K. replace ((1 - t) * a n + t * d n) with (a n + t * (d n - a n)) by ring. lra.
Qed.
Lemma open_inside n (b : axisbox R) (a d : nat -> R) t : 0 <= t <= 1 -> in_box_open n b (fun i => (1 - t) * a i + t * d i) -> exists s, 0 < s < 1 /\ in_box_open n b (fun i => (1 - s) * a i + s * d i).
Proof.
  intros T B. destruct (Req_dec t 0) as [->|N0]; [|destruct (Req_dec t 1) as [->|N1]; [|exists t; split; [lra|exact B]]].
  - destruct (open_step (co (low b)) (co (high b)) a d n) as (r & R1 & R2); [intros i Hi; specialize (B i Hi); lra|]. exists r. split; [lra|]. intros i Hi. apply R2; auto. lra.
  - destruct (open_step (co (low b)) (co (high b)) d a n) as (r & R1 & R2); [intros i Hi; specialize (B i Hi); lra|]. exists (1 - r). split; [lra|]. intros i Hi. replace (1 - (1 - r)) with r by ring. specialize (R2 r ltac:(lra) i Hi). lra.
Qed.
Lemma seg_box_boxed n (s : segment R) b proper t : box_ordered n b -> 0 <= t <= 1 -> boxed n proper b (fun i => (1 - t) * co (end1 s) i + t * co (end2 s) i) -> i_seg_box n s b proper = true.
Proof.
  intros O T B. destruct proper; unfold boxed in B.
  - apply (C44_box_exact n s b O). destruct (open_inside n b _ _ t T B) as (r & R1 & R2). eexists. split; [|exact R2]. exists r. split; auto. intros i Hi. reflexivity.
  - apply (C44_box_exact n s b O). eexists. split; [|exact B]. exists t. split; auto. intros i Hi. reflexivity.
Qed.
(** ** The test as a whole *)
Lemma box_with_case n o l b proper r : l <> [] -> box_ordered n b -> (forall c, In c l -> plane_ok o (co c)) -> orient_box n o b proper = Ret r ->
  (r = None -> pg_box_with n o l b proper = Ret false) /\
  (r <> None -> (exists u, on_boundary l u /\ boxed n proper b (placed o u)) -> pg_box_with n o l b proper = Ret true) /\
  (r <> None -> ~ (exists u, on_boundary l u /\ boxed n proper b (placed o u)) -> pg_box_with n o l b proper = Undef).
Proof.
  intros Ne O Fl E. assert (U : forall v, (match l with [] => Ret false | _ => v end) = v) by (destruct l; [congruence|reflexivity]).
  destruct (map_ret_all (orient_convert n o) l) as (cs & Ey). { intros x I. destruct (convert_def eps0 n o x (Fl x I)) as (y & Y & _). now exists y. }
  assert (W : pg_box_with n o l b proper = match r with None => Ret false | Some _ => if existsb (fun s => i_seg_box n s b proper) (chain cs) then Ret true else Undef end).
  { unfold pg_box_with. destruct l as [|c0 l0]; [congruence|]. unfold point in *. rewrite E. cbn [obind]. destruct r; [|reflexivity]. rewrite Ey. reflexivity. }
  destruct r as [q|]; [|split; [intros _; exact W|split; intros X; congruence]]. split; [discriminate|].
  assert (F : Forall2 (fun x y : coords R => pteq n (co y) (placed o (co x))) l cs).
  { pose proof (map_ret_rel _ _ _ Ey) as G. clear - G Fl. induction G as [|x y l m Q F IH]; [constructor|]. constructor.
    - destruct (convert_def eps0 n o x (Fl x (or_introl eq_refl))) as (c & Ec & _ & P). unfold point in *. assert (c = y) as -> by congruence. intros i Hi. rewrite (P i Hi). symmetry. exact (placed_at n o (co x) i Hi).
    - apply IH. intros c I. apply Fl. now right. }
  split; intros _.
  - intros (u & (a0 & d0 & I0 & t & Ht & Et) & B). rewrite W. assert (Ex : existsb (fun s : segment R => i_seg_box n s b proper) (chain cs) = true); [|rewrite Ex; reflexivity].
    destruct (sides_rel _ _ _ (Forall2_swap _ _ _ F) _ _ I0) as (a & d & I & Pa & Pd). destruct (side_chain cs a d I) as (s & Is & Es). apply existsb_exists. exists s. split; auto.
    assert (K : pteq n (placed o u) (fun i => (1 - t) * co a i + t * co d i)).
    { intros i Hi. rewrite (placed_ext n o _ _ Et i Hi), (placed_mix n o t (co a0) (co d0) i Hi), (Pa i Hi), (Pd i Hi). reflexivity. }
    destruct Es as [-> | ->].
    + apply (seg_box_boxed n _ b proper t O Ht). cbn [end1 end2]. exact (boxed_ext n proper b _ _ K B).
    + apply (seg_box_boxed n _ b proper (1 - t) O ltac:(lra)). cbn [end1 end2]. refine (boxed_ext n proper b _ _ _ B). intros i Hi. rewrite (K i Hi). ring.
  - intros N. rewrite W. destruct (existsb _ _) eqn:Ex; [|reflexivity]. exfalso. apply N. apply (box_with_sound n o l b proper O Fl). now rewrite W.
Qed.
Lemma orient_box_line n o b proper : (valid (pax0 o) = true -> norm2 n (co (pax0 o)) = 1) -> valid (porigin o) = true -> valid (pax1 o) = false -> box_ordered n b ->
  exists r, orient_box n o b proper = Ret r /\ (r <> None <-> exists u, boxed n proper b (placed o u)).
Proof.
  intros F3 Vo V1 O. unfold orient_box. rewrite Vo. cbn [oassert]. destruct (valid (pax0 o)) eqn:V0; cbn [negb].
  - rewrite V1. destruct (line_box_ok o b n proper O (F3 eq_refl)) as (r & E & Q). exists r. split; auto. rewrite Q. unfold boxed, allows. split.
    + intros (t & T). exists (fun _ => t). destruct proper; intros i Hi; specialize (T i Hi); unfold placed; rewrite V0, V1; lra.
    + intros (u & B). exists (u 0%nat). intros i Hi. destruct proper; specialize (B i Hi); unfold placed in B; rewrite V0, V1 in B; lra.
  - destruct (convert_def eps0 n o (pt2 n0 n0 false)) as (c & Ec & _ & P); [split; [exact Vo|split; intros _; reflexivity]|]. unfold point in *. rewrite Ec. cbn [obind].
    assert (Pc : forall u, pteq n (co c) (placed o u)). { intros u i Hi. rewrite (P i Hi). unfold plane_at, placed. rewrite V0, V1. ring. }
    eexists. split; [reflexivity|]. split.
    + intros N. exists (fun _ => 0). apply (box_point_boxed n proper b c _ (Pc _)). destruct (i_box_point n b c proper); [reflexivity|congruence].
    + intros (u & B). apply (box_point_boxed n proper b c _ (Pc u)) in B. rewrite B. discriminate.
Qed.
(** A polygon on a line has no inside. *)
Lemma flat_no_interior l u : (forall c : coords R, In c l -> co c 1%nat = 0) -> ~ interior l u.
Proof.
  intros Fl [Nb E]. set (k := if Req_EM_T (u 1%nat) 0 then 1 else u 1%nat). set (d := fun i : nat => match i with O => 0 | _ => k end).
  assert (Kn : k <> 0) by (unfold k; destruct (Req_EM_T (u 1%nat) 0); lra).
  assert (K : forall t, 0 <= t -> u 1%nat + t * k = 0 -> t = 0 /\ u 1%nat = 0).
  { intros t T Q. unfold k in Q. destruct (Req_EM_T (u 1%nat) 0) as [Z|Z]; [split; auto; lra|]. exfalso. assert (u 1%nat * (1 + t) = 0) by lra. assert (1 + t <> 0) by lra. apply Rmult_integral in H. tauto. }
  assert (Sd : forall a c, In (a, c) (sides l) -> forall x, on_side (co a) (co c) x -> x 1%nat = 0).
  { intros a c I x (s & S & Q). destruct (sides_in l a c I) as [A C]. rewrite (Q 1%nat ltac:(lia)), (Fl a A), (Fl c C). ring. }
  assert (C : clear_ray l u d).
  { split; [intros Q; specialize (Q 1%nat ltac:(lia)); cbn in Q; contradiction|]. intros c I (t & T & Q). pose proof (Q 1%nat ltac:(lia)) as Q1. rewrite (Fl c I) in Q1. cbn [d] in Q1. destruct (K t T (eq_sym Q1)) as [-> _].
    apply Nb. destruct (corner_region l c I) as (a & e & Ie & s & S & Q2). exists a, e. split; auto. exists s. split; auto. intros i Hi. rewrite <- (Q2 i Hi), (Q i Hi). ring. }
  assert (N : forall s, In s (sides l) -> ~ meets_ray u d s).
  { intros [a c] I (x & (t & T & Q) & Os). cbn [fst snd] in Os. pose proof (Sd a c I x Os) as Z. rewrite (Q 1%nat ltac:(lia)) in Z. cbn [d] in Z. destruct (K t T Z) as [-> _]. apply Nb. exists a, c. split; auto.
    destruct Os as (s & S & Qs). exists s. split; auto. intros i Hi. rewrite <- (Qs i Hi), (Q i Hi). ring. }
  assert (Cn : counts (meets_ray u d) (sides l) 0). { clear - N. induction (sides l) as [|s L IH]; constructor; [apply N; now left|apply IH; intros; apply N; now right]. }
  specialize (E d 0%nat C Cn). discriminate.
Qed.
Lemma flat_region n p y : pg_ok n p -> valid (pax1 (pplane p)) = false -> (space_region n p y <-> exists u, on_boundary (pcorners p) u /\ pteq n y (placed (pplane p) u)).
Proof.
  intros O V. split; [|intros (u & U & Y); exists u; split; auto; now left]. intros (u & [U|U] & Y); [now exists u|]. exfalso. apply (flat_no_interior (pcorners p) u); auto.
  intros c I. apply (ok_plane n p O c I). exact V.
Qed.
Lemma space_box_flat n p b proper : pg_ok n p -> valid (pax1 (pplane p)) = false -> pcorners p <> [] -> box_ordered n b ->
  (meet (space_region n p) (boxed n proper b) -> i_pg_box n p b proper = Ret true) /\
  (~ (exists u, boxed n proper b (placed (pplane p) u)) -> i_pg_box n p b proper = Ret false) /\
  ((exists u, boxed n proper b (placed (pplane p) u)) -> ~ meet (space_region n p) (boxed n proper b) -> i_pg_box n p b proper = Undef).
Proof.
  intros O V1 Ne Ob. assert (Vo : valid (porigin (pplane p)) = true). { destruct (pcorners p) as [|c l] eqn:El; [congruence|]. apply (ok_plane n p O c). rewrite El. now left. }
  destruct (orient_box_line n (pplane p) b proper (proj1 (proj2 (proj2 (proj1 O)))) Vo V1 Ob) as (r & E & Q). destruct (box_with_case n (pplane p) (pcorners p) b proper r Ne Ob (ok_plane n p O) E) as (A & B & C).
  assert (M : meet (space_region n p) (boxed n proper b) <-> exists u, on_boundary (pcorners p) u /\ boxed n proper b (placed (pplane p) u)).
  { split.
    - intros (y & Y & By). apply (flat_region n p y O V1) in Y. destruct Y as (u & U & Yu). exists u. split; auto. exact (boxed_ext n proper b _ _ Yu By).
    - intros (u & U & Bu). exists (placed (pplane p) u). split; auto. apply (flat_region n p _ O V1). exists u. split; auto. intros i Hi. reflexivity. }
  rewrite M. split; [intros X; apply B; auto; apply Q; destruct X as (u & _ & X); now exists u|]. split.
  - intros N. apply A. destruct r; auto. exfalso. apply N, Q. discriminate.
  - intros X Y. apply C; auto. now apply Q.
Qed.
(** ** Rotated boxes *)
Lemma space_rb_flat n p r proper : pg_ok n p -> valid (pax1 (pplane p)) = false -> pcorners p <> [] ->
  mvalid (orient r) = true -> valid (corner0 r) = true -> orthogonal n (ent (orient r)) -> (proper = true -> rb_thick n r) ->
  (meet (space_region n p) (rboxed n proper r) -> i_pg_rb n p r proper = Ret true) /\
  (~ (exists u, rboxed n proper r (placed (pplane p) u)) -> i_pg_rb n p r proper = Ret false) /\
  ((exists u, rboxed n proper r (placed (pplane p) u)) -> ~ meet (space_region n p) (rboxed n proper r) -> i_pg_rb n p r proper = Undef).
Proof.
  intros O V1 Ne Mv Vc Or Th. assert (Vo : valid (porigin (pplane p)) = true). { destruct (pcorners p) as [|c l] eqn:El; [congruence|]. apply (ok_plane n p O c). rewrite El. now left. }
  unfold i_pg_rb, rb_orient. set (m := rot_inverse n (orient r)). set (o' := orient_rotate n (pplane p) m (corner0 r)).
  assert (Mvm : mvalid m = true) by (unfold m; exact Mv).
  pose proof (rotate_plane eps0 n (pplane p) m (corner0 r) Mvm Vc) as (V & V0' & V1' & M). fold o' in V, V0', V1', M.
  assert (Pl : forall u, plane_ok (pplane p) u -> pteq n (placed o' u) (frame n r (placed (pplane p) u))).
  { intros u U i Hi. rewrite (placed_at n o' u i Hi), (M u U i Hi). unfold m; transitivity (frame n r (plane_at (pplane p) u) i); [exact (turned_frame eps0 n r (plane_at (pplane p) u) i Hi)|]. apply (frame_ext n r); auto. intros j Hj. symmetry. exact (placed_at n (pplane p) u j Hj). }
  assert (Rb : forall x, rboxed n proper r x <-> boxed n proper (rb_own_box n r) (frame n r x)). { intros x. unfold rboxed, boxed. destruct proper; [apply (in_frame_open eps0 n r Or)|apply (in_frame eps0 n r Or)]; auto. }
  (* the coordinates of a missing axis do not matter *)
  set (cut := fun (u : pt) (i : nat) => if (match i with O => valid (pax0 (pplane p)) | _ => valid (pax1 (pplane p)) end) then u i else 0).
  assert (Cut : forall u, plane_ok (pplane p) (cut u)) by (intros u; unfold cut; split; [exact Vo|split; intros ->; reflexivity]).
  assert (Cp : forall o u, valid (pax0 o) = valid (pax0 (pplane p)) -> valid (pax1 o) = valid (pax1 (pplane p)) -> pteq n (placed o (cut u)) (placed o u)).
  { intros o u E0 E1 i Hi. unfold placed, cut. rewrite E0, E1. destruct (valid (pax0 (pplane p))), (valid (pax1 (pplane p))); reflexivity. }
  assert (Pl' : forall u, boxed n proper (rb_own_box n r) (placed o' u) <-> rboxed n proper r (placed (pplane p) u)).
  { intros u. rewrite Rb. assert (E : pteq n (placed o' u) (frame n r (placed (pplane p) u))).
    { intros i Hi. rewrite <- (Cp o' u V0' V1' i Hi), (Pl (cut u) (Cut u) i Hi). apply (frame_ext n r); [|exact Hi]. intros j Hj. exact (Cp (pplane p) u eq_refl eq_refl j Hj). }
    split; apply boxed_ext; auto. intros i Hi. symmetry. now apply E. }
  assert (Fl : forall c, In c (pcorners p) -> plane_ok o' (co c)). { intros c I. destruct (ok_plane n p O c I) as (A & B & C). split; [now rewrite V|]. now rewrite V0', V1'. }
  assert (N1 : valid (pax0 o') = true -> norm2 n (co (pax0 o')) = 1).
  { intros X. rewrite V0' in X. unfold o', orient_rotate. cbn [pax0]. destruct (proj1 O) as (_ & _ & F3 & _). rewrite <- (F3 X). assert (Om : orthogonal n (ent m)) by (apply (inverse_orth eps0 n (orient r)); [intro; exact Or|exact Mv]). exact (rotate_inner eps0 n m (pax0 (pplane p)) (pax0 (pplane p)) Om). }
  assert (Vo' : valid (porigin o') = true) by now rewrite V.
  assert (Ob : box_ordered n (rb_own_box n r)) by apply own_ordered.
  destruct (orient_box_line n o' (rb_own_box n r) proper N1 Vo' ltac:(now rewrite V1') Ob) as (q & E & Q). destruct (box_with_case n o' (pcorners p) (rb_own_box n r) proper q Ne Ob Fl E) as (A & B & C).
  assert (Me : meet (space_region n p) (rboxed n proper r) <-> exists u, on_boundary (pcorners p) u /\ boxed n proper (rb_own_box n r) (placed o' u)).
  { split.
    - intros (y & Y & By). apply (flat_region n p y O V1) in Y. destruct Y as (u & U & Yu). exists u. split; auto. apply Pl'. apply Rb. apply Rb in By. refine (boxed_ext n proper _ _ _ _ By). now apply (frame_ext n r).
    - intros (u & U & Bu). exists (placed (pplane p) u). split; [|now apply Pl']. apply (flat_region n p _ O V1). exists u. split; auto. intros i Hi. reflexivity. }
  rewrite Me. assert (Ex : (exists u, rboxed n proper r (placed (pplane p) u)) <-> q <> None). { rewrite Q. split; intros (u & U); exists u; now apply Pl'. } rewrite Ex.
  split; [intros X; apply B; auto; apply Q; destruct X as (u & _ & X); now exists u|]. split.
  - intros N. apply A. destruct q; auto. exfalso. apply N. discriminate.
  - intros X Y. now apply C.
Qed.
