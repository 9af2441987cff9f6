(** Polygons in the plane inside boxes, rotated boxes, segments and points. *)
From Coq Require Import Reals List Bool Lra Lia Psatz Permutation Classical.
From Flocq Require Import Core.Raux.
From Verif Require Import Base Scalar ConstModel VecModel RotModel QuatModel VecSpec RSpec RotSpec RLib MatLib VecProofs VecProofs4 ConstProofs ShapeSpec ShapeModel IntersectModel ShapeProofs ShapeProofs2 ShapeProofs3 BallProofs SegProofs SegProofs2 SegProofs3 SegProofs4 RbProofs PropBox PropRotBox PropSeg PolyModel PolyIntersectModel EvenOddSpec EvenOddProofs RegionSpec RegionProofs PolyShapeProofs.
Import ListNotations.
Open Scope R_scope.
#[local] Existing Instance Rnum | 0.
#[local] Existing Instance eps0.

(** A set cut out by half-planes contains the region as soon as it contains the corners. *)
Definition halves (A : pt -> Prop) : Prop := exists L : list (V * R), forall x, A x <-> forall d k, In (d, k) L -> ldot d x <= k.
Definition open_halves (A : pt -> Prop) : Prop := exists L : list (V * R), forall x, A x <-> forall d k, In (d, k) L -> ldot d x < k.
Lemma halves_region A l : halves A -> ((forall q, In q l -> A (co q)) <-> incl (region l) A).
Proof.
  intros (L & H). split.
  - intros C x X. apply H. intros d k I. apply (region_half l); auto. intros c Ic. apply (proj1 (H (co c)) (C c Ic)). auto.
  - intros I q Iq. apply I. left. now apply corner_region.
Qed.
Lemma open_halves_region A l : open_halves A -> ((forall q, In q l -> A (co q)) <-> incl (region l) A).
Proof.
  intros (L & H). split.
  - intros C x X. apply H. intros d k I. apply (interior_half l); auto. intros c Ic. apply (proj1 (H (co c)) (C c Ic)). auto.
  - intros I q Iq. apply I. left. now apply corner_region.
Qed.

Lemma box_halves (b : axisbox R) : halves (in_box 2 b).
Proof.
  exists [((1, 0), co (high b) 0); ((-1, 0), - co (low b) 0); ((0, 1), co (high b) 1); ((0, -1), - co (low b) 1)]. intros x. unfold ldot. split.
  - intros I d k Q. pose proof (I 0%nat ltac:(lia)). pose proof (I 1%nat ltac:(lia)). cbn in Q. destruct Q as [Q|[Q|[Q|[Q|[]]]]]; injection Q as <- <-; cbn [fst snd]; lra.
  - intros Q i Hi. pose proof (Q _ _ (or_introl eq_refl)) as Q1. pose proof (Q _ _ (or_intror (or_introl eq_refl))) as Q2. pose proof (Q _ _ (or_intror (or_intror (or_introl eq_refl)))) as Q3. pose proof (Q _ _ (or_intror (or_intror (or_intror (or_introl eq_refl))))) as Q4. cbn [fst snd] in *.
    destruct i as [|[|i]]; [lra|lra|lia].
Qed.
Lemma box_open_halves (b : axisbox R) : open_halves (in_box_open 2 b).
Proof.
  exists [((1, 0), co (high b) 0); ((-1, 0), - co (low b) 0); ((0, 1), co (high b) 1); ((0, -1), - co (low b) 1)]. intros x. unfold ldot. split.
  - intros I d k Q. pose proof (I 0%nat ltac:(lia)). pose proof (I 1%nat ltac:(lia)). cbn in Q. destruct Q as [Q|[Q|[Q|[Q|[]]]]]; injection Q as <- <-; cbn [fst snd]; lra.
  - intros Q i Hi. pose proof (Q _ _ (or_introl eq_refl)) as Q1. pose proof (Q _ _ (or_intror (or_introl eq_refl))) as Q2. pose proof (Q _ _ (or_intror (or_intror (or_introl eq_refl)))) as Q3. pose proof (Q _ _ (or_intror (or_intror (or_intror (or_introl eq_refl))))) as Q4. cbn [fst snd] in *.
    destruct i as [|[|i]]; [lra|lra|lia].
Qed.
Lemma box_has_pg2 (b : axisbox R) l : (c_box_pg2 b l false = true <-> incl (region l) (in_box 2 b)) /\ (c_box_pg2 b l true = true <-> incl (region l) (in_box_open 2 b)).
Proof.
  unfold c_box_pg2. rewrite !forallb_forall. rewrite <- (halves_region _ l (box_halves b)), <- (open_halves_region _ l (box_open_halves b)).
  split; split; intros C q I; specialize (C q I); apply (C39_point_exact 2 b q); auto.
Qed.

(** Rotated boxes *)
Lemma edge_2 (r : rotbox R) x k : edge 2 r x k = ent (orient r) k 0 * (x 0%nat - co (corner0 r) 0) + ent (orient r) k 1 * (x 1%nat - co (corner0 r) 1).
Proof. unfold edge, mapply. cbn [Rsum]. ring. Qed.
Lemma rb_halves (r : rotbox R) : orthogonal 2 (ent (orient r)) -> halves (in_rotbox 2 r).
Proof.
  intros O. set (e := fun k => (ent (orient r) k 0%nat, ent (orient r) k 1%nat) : V). set (o := fun k => ent (orient r) k 0%nat * co (corner0 r) 0 + ent (orient r) k 1%nat * co (corner0 r) 1).
  exists [(e 0%nat, o 0%nat + Rmax 0 (co (rsize r) 0)); ((- fst (e 0%nat), - snd (e 0%nat)), - (o 0%nat + Rmin 0 (co (rsize r) 0))); (e 1%nat, o 1%nat + Rmax 0 (co (rsize r) 1)); ((- fst (e 1%nat), - snd (e 1%nat)), - (o 1%nat + Rmin 0 (co (rsize r) 1)))].
  intros x. rewrite (in_edge 2 r O). unfold ldot. split.
  - intros I d k Q. pose proof (I 0%nat ltac:(lia)) as I0. pose proof (I 1%nat ltac:(lia)) as I1. rewrite edge_2 in I0, I1. cbn in Q. destruct Q as [Q|[Q|[Q|[Q|[]]]]]; injection Q as <- <-; unfold e, o; cbn [fst snd]; lra.
  - intros Q i Hi. pose proof (Q _ _ (or_introl eq_refl)) as Q1. pose proof (Q _ _ (or_intror (or_introl eq_refl))) as Q2. pose proof (Q _ _ (or_intror (or_intror (or_introl eq_refl)))) as Q3. pose proof (Q _ _ (or_intror (or_intror (or_intror (or_introl eq_refl))))) as Q4.
    unfold e, o in *. cbn [fst snd] in *. rewrite edge_2. destruct i as [|[|i]]; [lra|lra|lia].
Qed.
Lemma rb_open_halves (r : rotbox R) : orthogonal 2 (ent (orient r)) -> rb_thick 2 r -> open_halves (in_rotbox_open 2 r).
Proof.
  intros O T. set (e := fun k => (ent (orient r) k 0%nat, ent (orient r) k 1%nat) : V). set (o := fun k => ent (orient r) k 0%nat * co (corner0 r) 0 + ent (orient r) k 1%nat * co (corner0 r) 1).
  exists [(e 0%nat, o 0%nat + Rmax 0 (co (rsize r) 0)); ((- fst (e 0%nat), - snd (e 0%nat)), - (o 0%nat + Rmin 0 (co (rsize r) 0))); (e 1%nat, o 1%nat + Rmax 0 (co (rsize r) 1)); ((- fst (e 1%nat), - snd (e 1%nat)), - (o 1%nat + Rmin 0 (co (rsize r) 1)))].
  intros x. rewrite (in_edge_open 2 r O x T). unfold ldot. split.
  - intros I d k Q. pose proof (I 0%nat ltac:(lia)) as I0. pose proof (I 1%nat ltac:(lia)) as I1. rewrite edge_2 in I0, I1. cbn in Q. destruct Q as [Q|[Q|[Q|[Q|[]]]]]; injection Q as <- <-; unfold e, o; cbn [fst snd]; lra.
  - intros Q i Hi. pose proof (Q _ _ (or_introl eq_refl)) as Q1. pose proof (Q _ _ (or_intror (or_introl eq_refl))) as Q2. pose proof (Q _ _ (or_intror (or_intror (or_introl eq_refl)))) as Q3. pose proof (Q _ _ (or_intror (or_intror (or_intror (or_introl eq_refl))))) as Q4.
    unfold e, o in *. cbn [fst snd] in *. rewrite edge_2. destruct i as [|[|i]]; [lra|lra|lia].
Qed.
Lemma rb_has_pg2 (r : rotbox R) l : orthogonal 2 (ent (orient r)) ->
  (c_rb_pg2 r l false = true <-> incl (region l) (in_rotbox 2 r)) /\ (rb_thick 2 r -> (c_rb_pg2 r l true = true <-> incl (region l) (in_rotbox_open 2 r))).
Proof.
  intros O. unfold c_rb_pg2. rewrite !forallb_forall. split; [|intros T].
  - rewrite <- (halves_region _ l (rb_halves r O)). split; intros C q I; specialize (C q I); [apply (near_rb_0 2 r O), (rb_point 0 2 r O q); auto|]. apply (rb_point 0 2 r O q), (near_rb_0 2 r O); auto.
  - rewrite <- (open_halves_region _ l (rb_open_halves r O T)). split; intros C q I; specialize (C q I); apply (rb_point_proper 0 2 r O q T); auto.
Qed.

(** Segments: the line through the ends, and the two ends. *)
Lemma seg_halves (s : segment R) : halves (in_segment 2 s).
Proof.
  set (a0 := co (end1 s) 0). set (a1 := co (end1 s) 1). set (b0 := co (end2 s) 0). set (b1 := co (end2 s) 1).
  set (u := b0 - a0). set (v := b1 - a1).
  destruct (Req_dec (u * u + v * v) 0) as [Z|Z].
  - destruct (two_sq u v ltac:(lra)) as [Zu Zv]. exists [((1, 0), a0); ((-1, 0), - a0); ((0, 1), a1); ((0, -1), - a1)]. intros x. unfold ldot. split.
    + intros (t & T & E) d k Q. pose proof (E 0%nat ltac:(lia)) as E0. pose proof (E 1%nat ltac:(lia)) as E1. unfold seg_at in E0, E1. fold a0 b0 in E0. fold a1 b1 in E1. unfold u, v in *. replace b0 with a0 in * by lra. replace b1 with a1 in * by lra.
      cbn in Q. destruct Q as [Q|[Q|[Q|[Q|[]]]]]; injection Q as <- <-; cbn [fst snd]; lra.
    + intros Q. pose proof (Q _ _ (or_introl eq_refl)) as Q1. pose proof (Q _ _ (or_intror (or_introl eq_refl))) as Q2. pose proof (Q _ _ (or_intror (or_intror (or_introl eq_refl)))) as Q3. pose proof (Q _ _ (or_intror (or_intror (or_intror (or_introl eq_refl))))) as Q4. cbn [fst snd] in *.
      exists 0. split; [lra|]. intros i Hi. unfold seg_at. destruct i as [|[|i]]; [fold a0; lra|fold a1; lra|lia].
  - assert (P : 0 < u * u + v * v). { pose proof (Rle_0_sqr u) as S1. pose proof (Rle_0_sqr v) as S2. unfold Rsqr in S1, S2. lra. }
    exists [((u, v), u * b0 + v * b1); ((- u, - v), - (u * a0 + v * a1)); ((- v, u), - v * a0 + u * a1); ((v, - u), - (- v * a0 + u * a1))]. intros x. unfold ldot. split.
    + intros (t & T & E) d k Q. pose proof (E 0%nat ltac:(lia)) as E0. pose proof (E 1%nat ltac:(lia)) as E1. unfold seg_at in E0, E1. fold a0 b0 in E0. fold a1 b1 in E1.
      replace ((1 - t) * a0 + t * b0) with (a0 + t * u) in E0 by (unfold u; ring). replace ((1 - t) * a1 + t * b1) with (a1 + t * v) in E1 by (unfold v; ring).
      assert (B0 : b0 = a0 + u) by (unfold u; ring). assert (B1 : b1 = a1 + v) by (unfold v; ring). clearbody u v b0 b1. subst b0 b1. rewrite E0, E1.
      cbn in Q. destruct Q as [Q|[Q|[Q|[Q|[]]]]]; injection Q as <- <-; cbn [fst snd]; nra.
    + intros Q. pose proof (Q _ _ (or_introl eq_refl)) as Q1. pose proof (Q _ _ (or_intror (or_introl eq_refl))) as Q2. pose proof (Q _ _ (or_intror (or_intror (or_introl eq_refl)))) as Q3. pose proof (Q _ _ (or_intror (or_intror (or_intror (or_introl eq_refl))))) as Q4. cbn [fst snd] in *.
      set (t := (u * (x 0%nat - a0) + v * (x 1%nat - a1)) / (u * u + v * v)). exists t. split.
      * split; [apply Rle_mult_inv_pos; lra|]. apply Rmult_le_reg_r with (u * u + v * v); auto. unfold t, Rdiv. rewrite Rmult_assoc, Rinv_l by lra. unfold u, v in *. lra.
      * assert (Eq : u * (x 1%nat - a1) = v * (x 0%nat - a0)) by lra.
        intros i Hi. unfold seg_at. destruct i as [|[|i]]; [| |lia].
        -- fold a0 b0. replace ((1 - t) * a0 + t * b0) with (a0 + t * u) by (unfold u; ring). apply Rmult_eq_reg_r with (u * u + v * v); [|lra]. unfold t.
           transitivity (a0 * (u * u + v * v) + u * (u * (x 0%nat - a0) + v * (x 1%nat - a1))); [|field; lra]. transitivity (a0 * (u * u + v * v) + u * (u * (x 0%nat - a0)) + v * (v * (x 0%nat - a0))); [ring|]. rewrite <- Eq. ring.
        -- fold a1 b1. replace ((1 - t) * a1 + t * b1) with (a1 + t * v) by (unfold v; ring). apply Rmult_eq_reg_r with (u * u + v * v); [|lra]. unfold t.
           transitivity (a1 * (u * u + v * v) + v * (u * (x 0%nat - a0) + v * (x 1%nat - a1))); [|field; lra]. transitivity (a1 * (u * u + v * v) + u * (u * (x 1%nat - a1)) + v * (v * (x 1%nat - a1))); [ring|]. rewrite Eq. ring.
Qed.
Lemma seg_has_pg2 (s : segment R) l : c_seg_pg2 s l false = true <-> incl (region l) (in_segment 2 s).
Proof.
  unfold c_seg_pg2. rewrite !forallb_forall. rewrite <- (halves_region _ l (seg_halves s)). split; intros C q I; specialize (C q I); apply (seg_point 2 s q); auto.
Qed.
Lemma seg_open_in (s : segment R) x : in_segment_open 2 s x -> in_segment 2 s x.
Proof. intros (t & T & E). exists t. split; auto. lra. Qed.
(** With proper, inside the segment without its ends. *)
Lemma seg_open_part (s : segment R) x : ~ pteq 2 (co (end1 s)) (co (end2 s)) -> 
  let u := co (end2 s) 0 - co (end1 s) 0 in let v := co (end2 s) 1 - co (end1 s) 1 in
  (in_segment_open 2 s x <-> in_segment 2 s x /\ ldot (u, v) (co (end1 s)) < ldot (u, v) x /\ ldot (u, v) x < ldot (u, v) (co (end2 s))).
Proof.
  intros D u v. assert (P : 0 < u * u + v * v).
  { apply Rnot_le_lt. intros Z. apply D. destruct (two_sq u v Z). intros i Hi. unfold u, v in *. destruct i as [|[|i]]; [lra|lra|lia]. }
  assert (K : forall t, pteq 2 x (seg_at s t) -> ldot (u, v) x = ldot (u, v) (co (end1 s)) + t * (u * u + v * v) /\ ldot (u, v) (co (end2 s)) = ldot (u, v) (co (end1 s)) + (u * u + v * v)).
  { intros t E. unfold ldot. cbn [fst snd]. rewrite (E 0%nat), (E 1%nat) by lia. unfold seg_at, u, v. split; ring. }
  split.
  - intros (t & T & E). destruct (K t E) as [K1 K2]. rewrite K1, K2. split; [exists t; split; auto; lra|]. split; nra.
  - intros ((t & T & E) & A & B). destruct (K t E) as [K1 K2]. rewrite K1 in *. rewrite K2 in *. exists t. split; auto. split; [apply Rnot_le_lt; intros Z|apply Rnot_le_lt; intros Z]; nra.
Qed.
Lemma seg_has_pg2_proper (s : segment R) l : ~ pteq 2 (co (end1 s)) (co (end2 s)) -> (c_seg_pg2 s l true = true <-> incl (region l) (in_segment_open 2 s)).
Proof.
  intros D. unfold c_seg_pg2. rewrite forallb_forall. split.
  - intros C x X. assert (C' : forall q, In q l -> in_segment_open 2 s (co q)) by (intros q I; apply (seg_point_proper 2 s q D); auto).
    apply seg_open_part; auto. split; [|split].
    + revert x X. apply (halves_region _ l (seg_halves s)). intros q I. apply seg_open_in. auto.
    + set (d := (_, _) : V). set (k := ldot d (co (end1 s))).
      assert (Q : ldot (- fst d, - snd d) x < - k). { apply (interior_half l); auto. intros c I. specialize (C' c I). apply seg_open_part in C'; auto. fold d in C'. unfold ldot in *. cbn [fst snd] in *. unfold k. unfold ldot. lra. }
      unfold ldot in *. cbn [fst snd] in *. lra.
    + apply (interior_half l); auto. intros c I. specialize (C' c I). apply seg_open_part in C'; auto. tauto.
  - intros I q Iq. apply (seg_point_proper 2 s q D). apply I. left. now apply corner_region.
Qed.
Lemma pt_halves (p : pt) : halves (pteq 2 p).
Proof.
  exists [((1, 0), p 0%nat); ((-1, 0), - p 0%nat); ((0, 1), p 1%nat); ((0, -1), - p 1%nat)]. intros x. unfold ldot. split.
  - intros I d k Q. pose proof (I 0%nat ltac:(lia)). pose proof (I 1%nat ltac:(lia)). cbn in Q. destruct Q as [Q|[Q|[Q|[Q|[]]]]]; injection Q as <- <-; cbn [fst snd]; lra.
  - intros Q i Hi. pose proof (Q _ _ (or_introl eq_refl)) as Q1. pose proof (Q _ _ (or_intror (or_introl eq_refl))) as Q2. pose proof (Q _ _ (or_intror (or_intror (or_introl eq_refl)))) as Q3. pose proof (Q _ _ (or_intror (or_intror (or_intror (or_introl eq_refl))))) as Q4. cbn [fst snd] in *.
    destruct i as [|[|i]]; [lra|lra|lia].
Qed.
