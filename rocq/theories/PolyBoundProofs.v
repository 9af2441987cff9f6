(** Bounding boxes and spheres of polygons in space: proofs. *)
From Coq Require Import Reals List Bool Lra Lia Psatz.
From Flocq Require Import Core.Raux.
From Verif Require Import Base Scalar ConstModel VecModel VecSpec RSpec RLib VecProofs VecProofs4 ConstProofs ShapeSpec ShapeModel IntersectModel ShapeProofs ShapeProofs2 ShapeProofs3 BallProofs SphereProofs MotionProofs2 RbProofs PolyModel PolySpec PolyProofs PolyIntersectModel EvenOddSpec RegionSpec RegionProofs PolyShapeProofs SpaceSpec PolySpaceProofs MiniballModel PolySphereModel.
Import ListNotations.
Open Scope R_scope.

(** A ball that has the corners has the region. *)
Lemma region_ball l (b : ball R) : 0 <= radius b -> (forall c, In c l -> in_ball 2 b (co c)) -> incl (region l) (in_ball 2 b).
Proof.
  intros Hr C. apply (ball_has_pg2 l b Hr). unfold c_ball_pg2. apply forallb_forall. intros q Iq.
  rewrite negb_true_iff, (greater_false 0), (sqd0 2). specialize (C q Iq). rewrite in_ball_sqr in C by auto. cbn [nmul Rnum]. lra.
Qed.

Section Bound.
Context (eps : Epsilon).
Variable n : nat.
Definition flat_pt (o : porient R) (u : pt) : Prop := (valid (pax0 o) = false -> u 0%nat = 0) /\ (valid (pax1 o) = false -> u 1%nat = 0).
Lemma placed_dist2 o (u v : pt) : frame_ok n o -> flat_pt o u -> flat_pt o v -> dist2 n (placed o u) (placed o v) = dist2 2 u v.
Proof.
  intros (F1 & F2 & F3 & F4) (C0 & C1) (D0 & D1). assert (E : dist2 2 u v = (u 0%nat - v 0%nat) * (u 0%nat - v 0%nat) + (u 1%nat - v 1%nat) * (u 1%nat - v 1%nat)) by (unfold dist2, norm2, inner; cbn; ring).
  rewrite E. unfold dist2, placed.
  destruct (valid (pax1 o)) eqn:V1; destruct (valid (pax0 o)) eqn:V0; try (specialize (F1 eq_refl); discriminate).
  - destruct (F4 eq_refl) as [A B]. specialize (F3 eq_refl). rewrite (norm2_ext n _ (fun i => (u 0%nat - v 0%nat) * co (pax0 o) i + (u 1%nat - v 1%nat) * co (pax1 o) i)) by (intros; ring).
    rewrite norm2_plus, !norm2_scal, inner_scal_l, inner_scal_r, A, B, F3. ring.
  - specialize (F3 eq_refl). rewrite (C1 eq_refl), (D1 eq_refl). rewrite (norm2_ext n _ (fun i => (u 0%nat - v 0%nat) * co (pax0 o) i)) by (intros; ring). rewrite norm2_scal, F3. ring.
  - rewrite (C1 eq_refl), (D1 eq_refl), (C0 eq_refl), (D0 eq_refl). rewrite (norm2_ext n _ (fun _ => 0)) by (intros; ring). unfold norm2, inner. rewrite Rsum_zero; [ring|intros; ring].
Qed.
(** The foot of a point in the plane of the polygon. *)
Lemma foot o (x : pt) : frame_ok n o -> exists u, flat_pt o u /\ forall v, flat_pt o v -> dist2 2 u v <= dist2 n x (placed o v).
Proof.
  intros (F1 & F2 & F3 & F4). set (s := fun i => x i - co (porigin o) i). set (a := co (pax0 o)) in *. set (b := co (pax1 o)) in *.
  set (p := if valid (pax0 o) then inner n s a else 0). set (q := if valid (pax1 o) then inner n s b else 0).
  exists (fun k => match k with O => p | _ => q end). split; [unfold flat_pt, p, q; split; intros ->; reflexivity|]. intros v (D0 & D1).
  assert (E : dist2 2 (fun k => match k with O => p | _ => q end) v = (p - v 0%nat) * (p - v 0%nat) + (q - v 1%nat) * (q - v 1%nat)) by (unfold dist2, norm2, inner; cbn; ring).
  rewrite E. unfold p, q, dist2, placed. fold a b.
  destruct (valid (pax1 o)) eqn:V1; destruct (valid (pax0 o)) eqn:V0; try (specialize (F1 eq_refl); discriminate).
  - destruct (F4 eq_refl) as [B AB]. specialize (F3 eq_refl). rewrite (norm2_ext n _ (fun i => s i - (v 0%nat * a i + v 1%nat * b i))) by (intros; unfold s; ring).
    pose proof (norm2_nonneg n (fun i => s i - (inner n s a * a i + inner n s b * b i))) as P.
    rewrite norm2_minus, inner_plus_r, !inner_scal_r, norm2_plus, !norm2_scal, inner_scal_l, inner_scal_r, F3, B, AB in *. nra.
  - specialize (F3 eq_refl). rewrite (D1 eq_refl). rewrite (norm2_ext n _ (fun i => s i - v 0%nat * a i)) by (intros; unfold s; ring).
    pose proof (norm2_nonneg n (fun i => s i - inner n s a * a i)) as P.
    rewrite norm2_minus, inner_scal_r, norm2_scal, F3 in *. nra.
  - rewrite (D0 eq_refl), (D1 eq_refl). match goal with |- _ <= ?z => pose proof (norm2_nonneg n (fun i => x i - (co (porigin o) i + 0 + 0))) end. lra.
Qed.
Lemma corner_flat p c : pg_ok n p -> In c (pcorners p) -> flat_pt (pplane p) (co c).
Proof. intros [_ F] I. rewrite Forall_forall in F. destruct (F c I) as (_ & A & B). split; auto. Qed.
Lemma corner_get p k c : pg_corner n p k = Ret c -> exists q, In q (pcorners p) /\ orient_convert n (pplane p) q = Ret c.
Proof.
  unfold pg_corner. destruct (poly_corner (pcorners p) k) as [q| | |] eqn:E; try discriminate. cbn [obind]. intros Q. exists q. split; auto.
  unfold poly_corner, oget in E. destruct (nth_error (pcorners p) k) eqn:X; try discriminate. injection E as <-. now apply nth_error_In in X.
Qed.
Lemma converted o q c : orient_convert n o q = Ret c -> pteq n (co c) (placed o (co q)).
Proof. intros E. destruct (convert_inv eps n o q c E) as (_ & _ & P). intros i Hi. rewrite (P i Hi). symmetry. now apply (placed_at n). Qed.

(** * The sphere around a ball of the plane *)
Lemma lifted p (b : ball R) : pg_ok n p -> pcorners p <> [] -> 0 <= radius b -> flat_pt (pplane p) (co (center b)) ->
  (forall c, In c (pcorners p) -> in_ball 2 b (co c)) ->
  exists c, orient_convert n (pplane p) (center b) = Ret c /\ valid c = valid (center b) /\
    pteq n (co c) (placed (pplane p) (co (center b))) /\
    incl (space_region n p) (in_ball n (mkBall c (radius b))) /\ (forall k x, pg_corner n p k = Ret x -> in_ball n (mkBall c (radius b)) (co x)).
Proof.
  intros O Ne Hr Fl C. pose proof (first_origin n p O Ne) as V. destruct (convert_def eps n (pplane p) (center b)) as (c & E & Vc & P).
  { destruct Fl. split; auto. } exists c. split; auto. split; auto.
  assert (P' : pteq n (co c) (placed (pplane p) (co (center b)))) by (eapply converted; eauto). split; auto.
  assert (D : forall u, flat_pt (pplane p) u -> in_ball 2 b u -> in_ball n (mkBall c (radius b)) (placed (pplane p) u)).
  { intros u U B. rewrite in_ball_sqr in B by auto. rewrite in_ball_sqr by (cbn; auto). cbn [center radius].
    rewrite (dist2_ext n (co c) (placed (pplane p) u) (placed (pplane p) (co (center b))) (placed (pplane p) u)); auto; [|intros i Hi; reflexivity].
    rewrite placed_dist2; auto. apply O. }
  split.
  - intros y (u & U & Ey). apply (respects_ball n _ (placed (pplane p) u)); [intros i Hi; symmetry; now apply Ey|]. apply D; [apply (region_flat n p u O U)|]. now apply (region_ball (pcorners p) b).
  - intros k x Ex. destruct (corner_get p k x Ex) as (q & I & Q). apply (respects_ball n _ (placed (pplane p) (co q))); [intros i Hi; symmetry; now apply (converted _ q x Q)|].
    apply D; [now apply corner_flat|auto].
Qed.

(** * The sloppy sphere: its centre stays in the plane of the polygon *)
Lemma grow_flat i : (i < 2)%nat -> forall c, (forall x : coords R, In x c -> co x i = 0) -> forall pos s1 s2 (ctr : point R) d r, co ctr i = 0 ->
  ritter_grow 2 c pos s1 s2 ctr d = Ret r -> co (fst r) i = 0.
Proof.
  intros Hi. induction c as [|x c IH]; intros F pos s1 s2 ctr d r Z E; cbn [ritter_grow] in E; [injection E as <-; exact Z|].
  assert (F' : forall y : coords R, In y c -> co y i = 0) by (intros y I; apply F; now right). destruct (Nat.eqb pos s1 || Nat.eqb pos s2); [eapply IH; eauto|].
  cbv zeta in E. match type of E with (if ?t then _ else _) = _ => destruct t end; [|eapply IH; eauto]. unfold oassert in E.
  match type of E with (if ?t then _ else _) = _ => destruct t end; [|discriminate]. eapply IH in E; eauto.
  rewrite add_co, div_co, scale_co, sub_co by auto. rewrite Z, (F x (or_introl eq_refl)). unfold Rdiv. ring.
Qed.
Lemma sloppy_flat i (c : list (point R)) b : (i < 2)%nat -> (forall x, In x c -> co x i = 0) -> bounding_sphere_sloppy 2 c = Ret b -> co (center b) i = 0.
Proof.
  intros Hi F E. unfold bounding_sphere_sloppy in E. destruct c as [|p0 rest] eqn:Ec.
  - injection E as <-. unfold ball_default, coords_default, co. cbn. destruct i as [|[|]]; try lia; reflexivity.
  - rewrite <- Ec in *. clear p0 rest Ec. destruct (ritter_axis 2 (ritter_scan 2 c)); [|discriminate].
    destruct (nth n0 (ritter_scan 2 c) _) as [[mn k] [mx j]]. cbv zeta in E.
    destruct (ritter_grow 2 c 0 k j _ _) as [r| | |] eqn:G; try discriminate. cbn [obind] in E. injection E as <-.
    assert (Z : forall m, co (nth m c (coords_default 2)) i = 0).
    { intros m. destruct (Nat.lt_ge_cases m (length c)); [apply F, nth_In; auto|]. rewrite nth_overflow by auto. unfold coords_default, co. cbn. destruct i as [|[|]]; try lia; reflexivity. }
    apply (grow_flat i Hi c F) in G; [unfold ball_make; cbn; match goal with |- context [if ?t then _ else _] => destruct t | _ => idtac end; exact G|]. rewrite (mid_co eps) by auto. rewrite !Z. ring.
Qed.

(** * The bounding box *)
Lemma bounds_spec o : forall l mn mx ok mn' mx' ok', pg_bounds n o l mn mx ok = Ret (mn', mx', ok') ->
  ok' = ok && forallb valid l /\ (forall i, (i < n)%nat ->
   (get mn' i <= get mn i /\ get mx i <= get mx' i) /\ (forall q, In q l -> get mn' i <= placed o (co q) i <= get mx' i) /\
   (forall k, k <= get mn i -> (forall q, In q l -> k <= placed o (co q) i) -> k <= get mn' i) /\
   (forall k, get mx i <= k -> (forall q, In q l -> placed o (co q) i <= k) -> get mx' i <= k)).
Proof.
  induction l as [|x l IH]; intros mn mx ok mn' mx' ok' E; cbn [pg_bounds] in E.
  - injection E as <- <- <-. cbn. rewrite andb_true_r. split; auto. intros i Hi. repeat split; intros; auto; try lra; try (now destruct H).
  - destruct (orient_convert n o x) as [c| | |] eqn:C; try discriminate. cbn [obind] in E. apply IH in E. destruct E as [V E].
    destruct (convert_inv eps n o x c C) as (_ & Vc & _). pose proof (converted o x c C) as P.
    split; [cbn [forallb]; rewrite V, Vc, andb_assoc; reflexivity|]. intros i Hi. destruct (E i Hi) as ((A1 & A2) & A3 & A4 & A5). unfold get in A1, A2, A4, A5; rewrite !nth_tab in A1, A2, A4, A5 by auto; fold (get mn i) (get mx i) in A1, A2, A4, A5; fold (get mn' i) (get mx' i) in A1, A2, A4, A5.
    specialize (P i Hi). change (at_ c i) with (co c i) in *. rewrite P in *. set (z := placed o (co x) i) in *. cbn [nltb Rnum] in *.
    assert (M1 : (if Rlt_bool z (get mn i) then z else get mn i) <= get mn i /\ (if Rlt_bool z (get mn i) then z else get mn i) <= z /\ forall k, k <= get mn i -> k <= z -> k <= (if Rlt_bool z (get mn i) then z else get mn i)).
    { destruct (Rlt_bool z (get mn i)) eqn:L; [apply Rltb_iff in L|apply Rltb_false in L]; repeat split; intros; lra. }
    assert (M2 : get mx i <= (if Rlt_bool (get mx i) z then z else get mx i) /\ z <= (if Rlt_bool (get mx i) z then z else get mx i) /\ forall k, get mx i <= k -> z <= k -> (if Rlt_bool (get mx i) z then z else get mx i) <= k).
    { destruct (Rlt_bool (get mx i) z) eqn:L; [apply Rltb_iff in L|apply Rltb_false in L]; repeat split; intros; lra. }
    destruct M1 as (M11 & M12 & M13), M2 as (M21 & M22 & M23). split; [split; lra|]. split; [|split].
    + intros q [<-|I]; [fold z; lra|]. now apply A3.
    + intros k K F. apply A4; [apply M13; auto; apply (F x (or_introl eq_refl))|]. intros q I. apply F. now right.
    + intros k K F. apply A5; [apply M23; auto; apply (F x (or_introl eq_refl))|]. intros q I. apply F. now right.
Qed.
(** A bound on the corners is a bound on the region. *)
Lemma region_coord p i k y : (forall q, In q (pcorners p) -> placed (pplane p) (co q) i <= k) -> (i < n)%nat -> space_region n p y -> y i <= k.
Proof.
  intros C Hi (u & U & E). rewrite (E i Hi). set (o := pplane p) in *.
  set (d := (if valid (pax0 o) then co (pax0 o) i else 0, if valid (pax1 o) then co (pax1 o) i else 0)).
  assert (D : forall v, placed o v i = co (porigin o) i + ldot d v) by (intros v; unfold placed, ldot, d; cbn [fst snd]; destruct (valid (pax0 o)), (valid (pax1 o)); ring).
  assert (X : ldot d u <= k - co (porigin o) i). { apply (region_half (pcorners p)); auto. intros c I. specialize (C c I). rewrite D in C. lra. }
  rewrite D. lra.
Qed.
Lemma region_coord_low p i k y : (forall q, In q (pcorners p) -> k <= placed (pplane p) (co q) i) -> (i < n)%nat -> space_region n p y -> k <= y i.
Proof.
  intros C Hi (u & U & E). rewrite (E i Hi). set (o := pplane p) in *.
  set (d := (- (if valid (pax0 o) then co (pax0 o) i else 0), - (if valid (pax1 o) then co (pax1 o) i else 0))).
  assert (D : forall v, placed o v i = co (porigin o) i - ldot d v) by (intros v; unfold placed, ldot, d; cbn [fst snd]; destruct (valid (pax0 o)), (valid (pax1 o)); ring).
  assert (X : ldot d u <= co (porigin o) i - k). { apply (region_half (pcorners p)); auto. intros c I. specialize (C c I). rewrite D in C. lra. }
  rewrite D. lra.
Qed.
Lemma bounds_ret o : forall l mn mx ok, Forall (flat_ok o) l -> exists r, pg_bounds n o l mn mx ok = Ret r.
Proof.
  induction l as [|x l IH]; intros mn mx ok F; cbn [pg_bounds]; [eauto|]. inversion F as [|? ? Fx Fl]; subst. destruct (convert_def eps n o x) as (c & E & _); [exact Fx|].
  rewrite E. cbn [obind]. now apply IH.
Qed.
Lemma box_spec p : pg_ok n p -> pcorners p <> [] -> exists b, pg_bounding_box n p = Ret b /\ box_valid b = forallb valid (pcorners p) /\ box_ordered n b /\
  incl (space_region n p) (in_box n b) /\ (forall b', incl (space_region n p) (in_box n b') -> incl (in_box n b) (in_box n b')).
Proof.
  intros O Ne. destruct O as [Fr Fl]. unfold pg_bounding_box. destruct (pcorners p) as [|x l] eqn:Ec; [congruence|]. inversion Fl as [|? ? Fx Fl']; subst.
  destruct (convert_def eps n (pplane p) x) as (c & E & Vc & _); [exact Fx|]. rewrite E. cbn [obind]. pose proof (converted _ x c E) as P.
  destruct (bounds_ret (pplane p) l (el c) (el c) (valid c) Fl') as (((mn & mx) & ok) & B). rewrite B. cbn [obind]. destruct (bounds_spec _ _ _ _ _ _ _ _ B) as [V S].
  eexists. split; [reflexivity|]. unfold box_corners.
  assert (K : forall i, (i < n)%nat -> forall q, In q (pcorners p) -> get mn i <= placed (pplane p) (co q) i <= get mx i).
  { intros i Hi q I. rewrite Ec in I. destruct (S i Hi) as ((A1 & A2) & A3 & _). destruct I as [<-|I]; [|now apply A3]. rewrite <- (P i Hi). change (co c i) with (get (el c) i). split; auto. }
  split; [unfold box_valid; cbn; rewrite V, Vc; destruct (valid x && forallb valid l); reflexivity|].
  split. { intros i Hi. pose proof (K i Hi x) as Q. rewrite Ec in Q. specialize (Q (or_introl eq_refl)). change (get mn i <= get mx i). lra. }
  split.
  - intros y Y i Hi. change (get mn i <= y i <= get mx i). split.
    + apply (region_coord_low p i _ y); auto. intros q I. now apply (K i Hi).
    + apply (region_coord p i _ y); auto. intros q I. now apply (K i Hi).
  - intros b' I y Y i Hi. specialize (Y i Hi). change (get mn i <= y i <= get mx i) in Y. destruct (S i Hi) as (_ & _ & A4 & A5).
    assert (Q : forall q, In q (x :: l) -> co (low b') i <= placed (pplane p) (co q) i <= co (high b') i).
    { intros q Iq. apply (I (placed (pplane p) (co q))); auto. exists (co q). split; [|intros j Hj; reflexivity]. left. apply corner_region. now rewrite Ec. }
    pose proof (Q x (or_introl eq_refl)) as Qx. rewrite <- (P i Hi) in Qx. change (co c i) with (get (el c) i) in Qx.
    assert (co (low b') i <= get mn i) by (apply A4; [lra|intros q Iq; apply Q; now right]).
    assert (get mx i <= co (high b') i) by (apply A5; [lra|intros q Iq; apply Q; now right]). lra.
Qed.
End Bound.
