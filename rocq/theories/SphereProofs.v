(** Rotated boxes as point sets, and bounding spheres: proofs. *)
From Coq Require Import ZArith NArith Reals Bool List Lia Lra Psatz.
From Flocq Require Import Core.Raux.
From Verif Require Import Base Scalar ConstModel VecModel RotModel QuatModel ShapeModel IntersectModel RSpec VecSpec RotSpec ShapeSpec RLib MatLib OrdLib VecProofs VecProofs2 VecProofs3 VecProofs4 RotProofs3 ShapeProofs ShapeProofs2 ShapeProofs3 BallProofs.
Import ListNotations.
Open Scope R_scope.

Section Rb.
Context (eps : Epsilon).
Variable n : nat.

(** ** Rotated boxes *)
Lemma rb_at_mapply (r : rotbox R) s i :
  rb_at n r s i = co (corner0 r) i + mapply n (mtr (ent (orient r))) (fun k => s k * co (rsize r) k) i.
Proof. unfold rb_at, mapply, mtr. f_equal. apply Rsum_ext. intros. ring. Qed.
Lemma mapply_minus A x y i : mapply n A x i - mapply n A y i = mapply n A (fun k => x k - y k) i.
Proof. unfold mapply. rewrite <- Rsum_minus. apply Rsum_ext. intros. ring. Qed.
Lemma rb_dist2 (r : rotbox R) s t : orthogonal n (ent (orient r)) ->
  dist2 n (rb_at n r s) (rb_at n r t) = Rsum n (fun k => ((s k - t k) * co (rsize r) k) * ((s k - t k) * co (rsize r) k)).
Proof.
  intros O. unfold dist2, norm2.
  transitivity (inner n (mapply n (mtr (ent (orient r))) (fun k => (s k - t k) * co (rsize r) k)) (mapply n (mtr (ent (orient r))) (fun k => (s k - t k) * co (rsize r) k))).
  - apply inner_ext; intros i Hi; rewrite !rb_at_mapply;
    transitivity (mapply n (mtr (ent (orient r))) (fun k => s k * co (rsize r) k) i - mapply n (mtr (ent (orient r))) (fun k => t k * co (rsize r) k) i);
    try ring; rewrite mapply_minus; apply mapply_ext; auto; try apply meq_refl; intros; ring.
  - rewrite orthogonal_inner by now apply orthogonal_tr. reflexivity.
Qed.
Lemma rb_center_co (r : rotbox R) i : (i < n)%nat -> co (rb_center n r) i = rb_at n r (fun _ => 1 / 2) i.
Proof.
  intros Hi. unfold rb_center. rewrite add_co by auto. rewrite rb_at_mapply. f_equal.
  change (prod_vm n (vec_div n (rsize r) n2) (orient r)) with (vec_rotate n (vec_div n (rsize r) n2) (orient r)).
  rewrite rotate_co by auto. apply mapply_ext; auto; [apply meq_refl|]. intros j Hj. unfold vec_div. rewrite co_tab, at_co by auto.
  unfold n2. cbn [ndiv nofZ Rnum]. lra.
Qed.
Definition bits (k : N) : pt := fun j => if N.testbit k (N.of_nat j) then 1 else 0.
Lemma rb_corner_at (r : rotbox R) k c : rb_corner n r k = Ret c -> (k < 2 ^ N.of_nat n)%N /\ forall i, (i < n)%nat -> co c i = rb_at n r (bits k) i.
Proof.
  unfold rb_corner. destruct (N.ltb_spec k (2 ^ N.of_nat n)); cbn [oassert]; [|discriminate]. intros E. split; auto. intros i Hi. injection E as <-.
  rewrite rb_at_mapply. destruct (N.eqb_spec k 0) as [->|Nz].
  - unfold mapply. rewrite Rsum_zero; [ring|]. intros j Hj. unfold bits. rewrite N.bits_0. ring.
  - rewrite add_co by auto. f_equal.
    match goal with |- co (prod_vm n ?v ?m) i = _ => change (prod_vm n v m) with (vec_rotate n v m) end.
    rewrite rotate_co by auto. apply mapply_ext; auto; [apply meq_refl|]. intros j Hj. rewrite co_tab by auto. rewrite at_co. unfold bits.
    destruct (N.testbit k (N.of_nat j)); unfold n0; cbn [nofZ Rnum]; lra.
Qed.
Lemma rb_corner_defined (r : rotbox R) k : (k < 2 ^ N.of_nat n)%N -> exists c, rb_corner n r k = Ret c.
Proof. intros Hk. unfold rb_corner. apply N.ltb_lt in Hk. rewrite Hk. cbn [oassert]. eauto. Qed.

Lemma dist2_ext a b c d : pteq n a c -> pteq n b d -> dist2 n a b = dist2 n c d.
Proof. intros E F. unfold dist2, norm2. apply inner_ext; intros i Hi; rewrite E, F by auto; auto. Qed.

(** ** Spheres of single shapes *)
Lemma half_scal a : Rsum n (fun k => (1 / 2 * a k) * (1 / 2 * a k)) = Rsum n (fun k => a k * a k) / 4.
Proof. replace (Rsum n (fun k => a k * a k) / 4) with ((1 / 4) * Rsum n (fun k => a k * a k)) by field. rewrite <- Rsum_scal_l. apply Rsum_ext. intros. field. Qed.

(** The middle of a box is within half the diagonal of its points. *)
Lemma box_half (a : axisbox R) (c : pt) x : (forall i, (i < n)%nat -> c i = (co (low a) i + co (high a) i) / 2) ->
  in_box n a x -> dist n c x <= dist n (co (low a)) (co (high a)) / 2.
Proof.
  intros Ec X. unfold dist. replace (sqrt (dist2 n (co (low a)) (co (high a))) / 2) with (sqrt (dist2 n (co (low a)) (co (high a)) / 4)).
  - apply sqrt_le_1_alt. unfold dist2, norm2, inner. rewrite <- half_scal. apply Rsum_le. intros i Hi. rewrite Ec by auto. specialize (X i Hi).
    assert (0 <= (co (high a) i - x i) * (x i - co (low a) i)) by (apply Rmult_le_pos; lra). lra.
  - unfold Rdiv. rewrite sqrt_mult_alt by apply dist2_nonneg. f_equal. replace (/ 4) with ((/2) * (/2)) by lra. apply sqrt_square. lra.
Qed.
(** A ball that contains two points has at least half their distance as radius. *)
Lemma ball_two (b : ball R) x y : in_ball n b x -> in_ball n b y -> dist n x y <= 2 * radius b.
Proof.
  unfold in_ball. intros X Y. pose proof (dist_triangle n x (co (center b)) y). rewrite (dist_sym n x (co (center b))) in H. lra.
Qed.
Lemma box_ends (a : axisbox R) : box_ordered n a -> in_box n a (co (low a)) /\ in_box n a (co (high a)).
Proof. intros O. split; intros i Hi; specialize (O i Hi); lra. Qed.

Lemma seg_half (s : segment R) (c : pt) x : (forall i, (i < n)%nat -> c i = (co (end1 s) i + co (end2 s) i) / 2) ->
  in_segment n s x -> dist n c x <= dist n (co (end1 s)) (co (end2 s)) / 2.
Proof.
  intros Ec (t & Ht & X).
  rewrite (dist_ext n c x (fun i => (co (end1 s) i + co (end2 s) i) / 2) (seg_at s t)) by (auto; intros i Hi; apply Ec; auto).
  rewrite !dist_norm.
  rewrite (norm_ext n _ (fun i => (t - 1 / 2) * (co (end1 s) i - co (end2 s) i))) by (intros i Hi; unfold seg_at; field).
  rewrite norm_scal. pose proof (dist_nonneg n (co (end1 s)) (co (end2 s))) as D. rewrite dist_norm in D.
  assert (Rabs (t - 1 / 2) <= 1 / 2) by (apply Rabs_le; lra). nra.
Qed.
Lemma seg_ends (s : segment R) : in_segment n s (co (end1 s)) /\ in_segment n s (co (end2 s)).
Proof. split; [exists 0|exists 1]; split; try lra; intros i Hi; unfold seg_at; ring. Qed.

Lemma rb_half (r : rotbox R) x : orthogonal n (ent (orient r)) -> in_rotbox n r x ->
  dist n (co (rb_center n r)) x <= mag n (rsize r) / 2.
Proof.
  intros O (s & Hs & X). rewrite (dist_ext n _ _ (rb_at n r (fun _ => 1 / 2)) (rb_at n r s)) by (auto; intros i Hi; now apply rb_center_co).
  unfold dist. rewrite rb_dist2 by auto. rewrite mag_norm. unfold norm.
  replace (sqrt (norm2 n (co (rsize r))) / 2) with (sqrt (norm2 n (co (rsize r)) / 4)).
  - apply sqrt_le_1_alt. unfold norm2, inner. rewrite <- half_scal. apply Rsum_le. intros k Hk. specialize (Hs k Hk).
    replace ((1 / 2 - s k) * co (rsize r) k * ((1 / 2 - s k) * co (rsize r) k)) with (((1 / 2 - s k) * (1 / 2 - s k)) * (co (rsize r) k * co (rsize r) k)) by ring.
    replace (1 / 2 * co (rsize r) k * (1 / 2 * co (rsize r) k)) with ((1 / 4) * (co (rsize r) k * co (rsize r) k)) by field.
    apply Rmult_le_compat_r; nra.
  - unfold Rdiv. rewrite sqrt_mult_alt by apply norm2_nonneg. f_equal. replace (/ 4) with ((/2) * (/2)) by lra. apply sqrt_square. lra.
Qed.
Lemma rb_diagonal (r : rotbox R) : orthogonal n (ent (orient r)) -> dist n (rb_at n r (fun _ => 0)) (rb_at n r (fun _ => 1)) = mag n (rsize r).
Proof.
  intros O. unfold dist. rewrite rb_dist2 by auto. rewrite mag_norm. unfold norm, norm2, inner. f_equal. apply Rsum_ext. intros. ring.
Qed.
End Rb.

(** ** The sloppy distance and Ritter's ball *)
Section Ritter.
Context (eps : Epsilon).
Variable n : nat.
Hypothesis Hn : n = 1%nat \/ n = 2%nat \/ n = 3%nat.

Lemma make_pos (c : point R) r : 0 <= r -> ball_make c r = mkBall c r.
Proof. intros. unfold ball_make, n0. cbn [nltb nofZ Rnum]. rewrite Rlt_bool_false by (change (IZR 0) with 0; lra). reflexivity. Qed.
Lemma mag_sub (p q : point R) : mag n (vec_sub n p q) = dist n (co p) (co q).
Proof. rewrite mag_norm. rewrite dist_norm. apply norm_ext. intros i Hi. now apply sub_co. Qed.
Lemma sloppy_ge (p q : point R) : dist n (co p) (co q) <= sloppy_dist n p q.
Proof.
  rewrite <- mag_sub. unfold sloppy_dist. destruct Hn as [->|[->| ->]].
  - right. symmetry. apply sloppy1_exact.
  - apply sloppy2_bracket.
  - apply sloppy3_bracket.
Qed.

(** One step: the enlarged ball contains the old one and the new point. *)
Lemma ritter_step (x ctr : point R) d nd : 0 <= d -> d < nd -> dist n (co x) (co ctr) <= nd ->
  let delta := (nd - d) / 2 in
  let ctr' := vec_add n ctr (vec_div n (vec_scale n (vec_sub n x ctr) delta) nd) in
  dist n (co ctr) (co ctr') <= delta /\ dist n (co ctr') (co x) <= d + delta.
Proof.
  intros Hd Lt Ge delta ctr'.
  assert (E : forall i, (i < n)%nat -> co ctr' i = co ctr i + (delta / nd) * (co x i - co ctr i)).
  { intros i Hi. unfold ctr'. rewrite add_co by auto. unfold vec_div, vec_scale. rewrite co_tab by auto. rewrite at_tab by auto. change (at_ (vec_sub n x ctr) i) with (co (vec_sub n x ctr) i). rewrite sub_co by auto.
    cbn [nmul ndiv Rnum]. field. lra. }
  assert (D : 0 < delta) by (unfold delta; lra).
  assert (K : 0 < delta / nd < 1). { split; [apply Rdiv_lt_0_compat; lra|]. apply div_lt_1; unfold delta; lra. }
  pose proof (dist_nonneg n (co x) (co ctr)) as P. split.
  - rewrite dist_norm. rewrite (norm_ext n _ (fun i => (- (delta / nd)) * (co x i - co ctr i))) by (intros i Hi; rewrite E by auto; ring).
    rewrite norm_scal, Rabs_Ropp, Rabs_pos_eq by lra. rewrite <- dist_norm.
    replace delta with (delta / nd * nd) at 2 by (field; lra). apply Rmult_le_compat_l; lra.
  - rewrite dist_norm. rewrite (norm_ext n _ (fun i => (- (1 - delta / nd)) * (co x i - co ctr i))) by (intros i Hi; rewrite E by auto; ring).
    rewrite norm_scal, Rabs_Ropp, Rabs_pos_eq by lra. rewrite <- dist_norm.
    replace (d + delta) with ((1 - delta / nd) * nd) by (unfold delta; field; lra). apply Rmult_le_compat_l; lra.
Qed.

Lemma grow_spec c : forall pos s1 s2 (ctr : point R) d, 0 <= d ->
  exists ctr' d', ritter_grow n c pos s1 s2 ctr d = Ret (ctr', d') /\ d <= d' /\
    (forall x, dist n (co ctr) x <= d -> dist n (co ctr') x <= d') /\
    (forall k, (k < length c)%nat -> (pos + k)%nat <> s1 -> (pos + k)%nat <> s2 -> dist n (co ctr') (co (nth k c (coords_default n))) <= d') /\
    (dims n ctr -> dims n ctr').
Proof.
  induction c as [|x c IH]; intros pos s1 s2 ctr d Hd; cbn [ritter_grow].
  - exists ctr, d. split; auto. split; [lra|]. split; auto. split; auto. cbn. intros; lia.
  - destruct (Nat.eqb pos s1 || Nat.eqb pos s2) eqn:Sk.
    + destruct (IH (S pos) s1 s2 ctr d Hd) as (c' & d' & E & L & I & A & Dm). exists c', d'. split; [|split; [|split; [|split]]]; auto.
      intros k Hk N1 N2. destruct k as [|k].
      * exfalso. rewrite Nat.add_0_r in *. apply orb_true_iff in Sk. destruct Sk as [Sk|Sk]; apply Nat.eqb_eq in Sk; auto.
      * cbn [nth]. apply A; cbn in Hk; lia.
    + cbn zeta. cbn [nltb Rnum]. destruct (Rlt_bool_spec d (sloppy_dist n x ctr)) as [Lt|Ge].
      * pose proof (ritter_step x ctr d (sloppy_dist n x ctr) Hd Lt (sloppy_ge x ctr)) as [M X]. cbn zeta in M, X.
        unfold n2. cbn [nsub ndiv nadd nofZ Rnum]. change (IZR 2) with 2 in *.
        set (ctr' := vec_add n ctr _) in *. set (dl := (sloppy_dist n x ctr - d) / 2) in *.
        assert (0 < dl) by (unfold dl; lra).
        assert (As : nleb (squared_distance n x ctr') (nmul (d + dl) (d + dl)) = true).
        { cbn [nleb nmul Rnum]. apply Rle_bool_true. eapply Rle_trans; [apply sqd_le|]. rewrite <- dist_sqr, dist_sym.
          pose proof (dist_nonneg n (co ctr') (co x)). apply Rmult_le_compat; auto. }
        rewrite As. cbn [oassert]. destruct (IH (S pos) s1 s2 ctr' (d + dl) ltac:(lra)) as (c' & d' & E & L & I & A & Dm).
        exists c', d'. split; [|split; [|split; [|split]]]; auto; [lra| | |].
        -- intros y Y. apply I. pose proof (dist_triangle n (co ctr') (co ctr) y). rewrite (dist_sym n (co ctr') (co ctr)) in H0. lra.
        -- intros k Hk N1 N2. destruct k as [|k]; cbn [nth]; [now apply I|]. apply A; cbn in Hk; lia.
        -- intros _. apply Dm. apply dims_tab.
      * destruct (IH (S pos) s1 s2 ctr d Hd) as (c' & d' & E & L & I & A & Dm). exists c', d'. split; [|split; [|split; [|split]]]; auto.
        intros k Hk N1 N2. destruct k as [|k]; cbn [nth]; [|apply A; cbn in Hk; lia]. apply I. rewrite dist_sym.
        eapply Rle_trans; [apply sloppy_ge|exact Ge].
Qed.

(** The scan never finds a negative span, so an axis is always chosen. *)
Definition ordered_ext (ext : list (R * nat * (R * nat))) : Prop :=
  forall j, (j < n)%nat -> fst (fst (nth j ext ((n0, 0%nat), (n0, 0%nat)))) <= fst (snd (nth j ext ((n0, 0%nat), (n0, 0%nat)))).
Lemma scan_ordered c : c <> [] -> ordered_ext (ritter_scan n c).
Proof.
  destruct c as [|p rest]; [congruence|]. intros _. unfold ritter_scan.
  match goal with |- ordered_ext (snd (fold_left ?f _ ?z)) => assert (I : ordered_ext (snd z)); [|revert I; generalize z; set (F := f)] end.
  - intros j Hj. cbn [snd]. rewrite nth_tab by auto. cbn. lra.
  - induction rest as [|x rest IH]; intros z I; cbn [fold_left]; auto. apply IH. destruct z as [pos ext]. unfold F. cbn [snd] in *.
    intros j Hj. rewrite nth_tab by auto. specialize (I j Hj). destruct (nth j ext _) as [[mn mnp] [mx mxp]]. cbn [fst snd] in I. cbn [nltb Rnum].
    destruct (Rlt_bool_spec (at_ x j) mn), (Rlt_bool_spec mx (at_ x j)); cbn; lra.
Qed.
Lemma axis_some ext : ordered_ext ext -> exists d, ritter_axis n ext = Some d.
Proof.
  intros O. unfold ritter_axis. replace (seq 0 n) with (0%nat :: seq 1 (n - 1)) by (replace n with (S (n - 1)) at 2 by lia; reflexivity). cbn [fold_left].
  specialize (O 0%nat ltac:(lia)). destruct (nth 0 ext _) as [[mn mnp] [mx mxp]]. cbn [fst snd] in O.
  unfold n1. cbn [nltb nsub nopp nofZ Rnum]. rewrite Rlt_bool_true by lra.
  match goal with |- exists d, snd (fold_left ?f ?l (?a, Some ?b)) = _ => set (F := f) end.
  assert (G : forall l sp d, exists d', snd (fold_left F l (sp, Some d)) = Some d'); [|apply G].
  intros l. induction l as [|j l IH]; intros sp d; cbn [fold_left]; [exists d; reflexivity|].
  assert (E : exists a b, F (sp, Some d) j = (a, Some b)).
  { unfold F. destruct (nth j ext _) as [[mn' mnp'] [mx' mxp']]. destruct (Rlt_bool sp (mx' - mn')); eauto. }
  destruct E as (a & b & E). rewrite E. apply IH.
Qed.

Lemma ritter_contains c : c <> [] -> exists b, bounding_sphere_sloppy n c = Ret b /\ ball_valid b = forallb valid c /\ dims n (center b) /\
  0 <= radius b /\ forall p, In p c -> in_ball n b (co p).
Proof.
  intros Ne. unfold bounding_sphere_sloppy. destruct c as [|p0 rest] eqn:Ec; [congruence|]. rewrite <- Ec in *. clear p0 rest Ec.
  destruct (axis_some _ (scan_ordered c Ne)) as [d ->]. destruct (nth d _ _) as [[mn i] [mx j]]. cbn zeta.
  set (pi := nth i c (coords_default n)). set (pj := nth j c (coords_default n)). set (ctr := midpoint n pi pj nhalf).
  pose proof (sloppy_ge pi ctr) as S. pose proof (dist_nonneg n (co pi) (co ctr)) as P.
  destruct (grow_spec c 0 i j ctr (sloppy_dist n pi ctr) (Rle_trans _ _ _ P S)) as (c' & d' & E & L & I & A & Dm). rewrite E. cbn [obind fst snd].
  rewrite make_pos by lra. eexists. split; [reflexivity|]. split; [reflexivity|]. split; [cbn; apply Dm, dims_tab|]. split; [cbn [radius]; lra|].
  assert (Half : dist n (co pj) (co ctr) = dist n (co pi) (co ctr)).
  { rewrite !dist_norm. rewrite (norm_ext n _ (fun k => (-1) * (co pi k - co ctr k))).
    - rewrite norm_scal. replace (Rabs (-1)) with 1 by (unfold Rabs; destruct Rcase_abs; lra). ring.
    - intros k Hk. unfold ctr. rewrite mid_co by auto. unfold nhalf, n1, n2. cbn [ndiv nofZ Rnum]. change (IZR 1) with 1. change (IZR 2) with 2. field. }
  intros p Hp. apply (In_nth c p (coords_default n)) in Hp. destruct Hp as (k & Hk & <-). unfold in_ball. cbn [center radius].
  change (co (mkC (el c') (forallb valid c))) with (co c').
  destruct (Nat.eq_dec k i) as [->|Ni]; [apply I; rewrite dist_sym; exact S|].
  destruct (Nat.eq_dec k j) as [->|Nj]; [apply I; rewrite dist_sym; fold pj; lra|].
  now apply A.
Qed.
End Ritter.
