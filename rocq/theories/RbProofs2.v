(** Rotated boxes: bounding boxes, inclusion between boxes, rotation. *)
From Coq Require Import ZArith NArith Reals Bool List Lia Lra Psatz.
From Flocq Require Import Core.Raux.
From Verif Require Import Base Scalar ConstModel VecModel RotModel QuatModel ShapeModel IntersectModel RSpec VecSpec RotSpec ShapeSpec RLib MatLib OrdLib VecProofs VecProofs2 VecProofs3 VecProofs4 RotProofs2 RotProofs3 ShapeProofs ShapeProofs2 ShapeProofs3 BallProofs SphereProofs SegProofs SegProofs2 SegProofs3 RbProofs.
Import ListNotations.
Open Scope R_scope.

Section BB.
Context (eps : Epsilon).
Variable n : nat.

(** ** boundingBox *)
Lemma bb_fold (r : rotbox R) i k : forall a b,
  fold_left (fun (st : R * R) j => let value := elem (orient r) j i * at_ (rsize r) j in
     if Rlt_bool value 0 then (fst st + value, snd st) else (fst st, snd st + value)) (seq 0 k) (a, b)
  = (a + Rsum k (fun j => Rmin 0 (co (rsize r) j * ent (orient r) j i)), b + Rsum k (fun j => Rmax 0 (co (rsize r) j * ent (orient r) j i))).
Proof.
  induction k as [|k IH]; intros a b; [cbn; f_equal; lra|].
  rewrite seq_S, fold_left_app, IH. cbn [fold_left Nat.add fst snd Rsum]. rewrite at_co. change (elem (orient r) k i) with (ent (orient r) k i). rewrite (Rmult_comm (ent (orient r) k i)).
  destruct (Rlt_bool _ 0) eqn:L; [apply Rltb_iff in L|apply Rltb_false in L]; cbn [fst snd]; unfold Rmin, Rmax; destruct (Rle_dec 0 (co (rsize r) k * ent (orient r) k i)); f_equal; lra.
Qed.
Lemma bb_co (r : rotbox R) i : (i < n)%nat ->
  co (low (rb_bounding_box n r)) i = co (corner0 r) i + Rsum n (fun j => Rmin 0 (co (rsize r) j * ent (orient r) j i)) /\
  co (high (rb_bounding_box n r)) i = co (corner0 r) i + Rsum n (fun j => Rmax 0 (co (rsize r) j * ent (orient r) j i)).
Proof.
  intros Hi. unfold rb_bounding_box, box_corners. cbn [low high]. rewrite !co_tab by auto. rewrite !at_co.
  pose proof (bb_fold r i n (co (corner0 r) i) (co (corner0 r) i)) as F. cbn zeta in F. cbn [nltb nadd nmul n0 nofZ Rnum]. rewrite F. auto.
Qed.
Lemma bb_ordered (r : rotbox R) : box_ordered n (rb_bounding_box n r).
Proof. intros i Hi. destruct (bb_co r i Hi) as [-> ->]. apply Rplus_le_compat_l, Rsum_le. intros j Hj. unfold Rmin, Rmax. destruct Rle_dec; lra. Qed.
Lemma bb_valid (r : rotbox R) : box_valid (rb_bounding_box n r) = rb_valid r.
Proof. unfold box_valid, rb_bounding_box, box_corners. cbn. apply andb_diag. Qed.
Lemma frac_bounds s v : 0 <= s <= 1 -> Rmin 0 v <= s * v <= Rmax 0 v.
Proof. intros. unfold Rmin, Rmax. destruct Rle_dec; nra. Qed.
Lemma bb_contains (r : rotbox R) : incl (in_rotbox n r) (in_box n (rb_bounding_box n r)).
Proof.
  intros x (s & S & E) i Hi. destruct (bb_co r i Hi) as [-> ->]. rewrite (E i Hi). unfold rb_at.
  split; apply Rplus_le_compat_l, Rsum_le; intros j Hj; rewrite Rmult_assoc; now apply frac_bounds, S.
Qed.
(** Each face is touched by a corner. *)
Lemma bb_touch (r : rotbox R) i : (i < n)%nat -> exists kl kh pl ph, rb_corner n r kl = Ret pl /\ rb_corner n r kh = Ret ph /\
  co pl i = co (low (rb_bounding_box n r)) i /\ co ph i = co (high (rb_bounding_box n r)) i.
Proof.
  intros Hi.
  destruct (pattern_exists n (fun j => if Rle_dec 0 (co (rsize r) j * ent (orient r) j i) then false else true)) as (kl & Kl & Pl).
  destruct (pattern_exists n (fun j => if Rle_dec 0 (co (rsize r) j * ent (orient r) j i) then true else false)) as (kh & Kh & Ph).
  destruct (rb_corner_defined eps n r kl Kl) as [pl El]. destruct (rb_corner_defined eps n r kh Kh) as [ph Eh].
  exists kl, kh, pl, ph. split; auto. split; auto. apply rb_corner_at in El, Eh. destruct El as [_ El], Eh as [_ Eh]. rewrite (El i Hi), (Eh i Hi).
  destruct (bb_co r i Hi) as [-> ->]. unfold rb_at. split; f_equal; apply Rsum_ext; intros j Hj; unfold bits; [rewrite (Pl j Hj)|rewrite (Ph j Hj)]; unfold Rmin, Rmax; destruct Rle_dec; ring.
Qed.
Lemma bb_least (r : rotbox R) (b : axisbox R) : (forall k p, rb_corner n r k = Ret p -> in_box n b (co p)) -> incl (in_box n (rb_bounding_box n r)) (in_box n b).
Proof.
  intros C x X i Hi. destruct (bb_touch r i Hi) as (kl & kh & pl & ph & El & Eh & Al & Ah). specialize (X i Hi). pose proof (C _ _ El i Hi). pose proof (C _ _ Eh i Hi). lra.
Qed.
Lemma corner_in_rb (r : rotbox R) k p : rb_corner n r k = Ret p -> in_rotbox n r (co p).
Proof.
  intros E. apply rb_corner_at in E. destruct E as [_ E]. exists (bits k). split; auto. intros j Hj. unfold bits. destruct (N.testbit k (N.of_nat j)); lra.
Qed.

(** ** A box inside another *)
Lemma box_contains_rb (b : axisbox R) (r : rotbox R) : 0 <= (eps : R) -> (c_box_rb n b r false = true <-> incl (in_rotbox n r) (near_box n eps b)) /\ (c_box_rb n b r true = true <-> incl (in_rotbox n r) (in_box_open n b)).
Proof.
  intros He. unfold c_box_rb. rewrite (contains_box eps n) by (auto; apply bb_ordered). rewrite (contains_box_proper eps n) by apply bb_ordered. split; split; intros I x X.
  - apply I, bb_contains, X.
  - intros i Hi. destruct (bb_touch r i Hi) as (kl & kh & pl & ph & El & Eh & Al & Ah). specialize (X i Hi).
    pose proof (I _ (corner_in_rb r _ _ El) i Hi). pose proof (I _ (corner_in_rb r _ _ Eh) i Hi). lra.
  - apply I, bb_contains, X.
  - intros i Hi. destruct (bb_touch r i Hi) as (kl & kh & pl & ph & El & Eh & Al & Ah). specialize (X i Hi).
    pose proof (I _ (corner_in_rb r _ _ El) i Hi). pose proof (I _ (corner_in_rb r _ _ Eh) i Hi). lra.
Qed.

(** ** Rotation about a point *)
Notation turned := (ShapeSpec.turned n).
Lemma turned_ext m p p' x x' : pteq n p p' -> pteq n x x' -> pteq n (turned m p x) (turned m p' x').
Proof. intros Ep Ex i Hi. unfold turned. rewrite (Ep i Hi). f_equal. apply Rsum_ext. intros j Hj. now rewrite (Ep j Hj), (Ex j Hj). Qed.
Lemma point_rotate_co (x p : point R) m i : (i < n)%nat -> co (point_rotate n x m p) i = turned m (co p) (co x) i.
Proof.
  intros Hi. unfold point_rotate. rewrite add_co by auto. unfold turned. f_equal.
  change (prod_vm n (vec_sub n x p) m) with (vec_rotate n (vec_sub n x p) m). rewrite rotate_co by auto. unfold mapply, mtr. apply Rsum_ext. intros j Hj. rewrite sub_co by auto. ring.
Qed.
Lemma turned_rb (r r' : rotbox R) m p s : pteq n (co (corner0 r')) (turned m p (co (corner0 r))) -> (forall k, (k < n)%nat -> co (rsize r') k = co (rsize r) k) ->
  meq n (ent (orient r')) (mmul n (ent (orient r)) (ent m)) -> pteq n (rb_at n r' s) (turned m p (rb_at n r s)).
Proof.
  intros Ec Es Em i Hi. unfold rb_at at 1. rewrite (Ec i Hi). unfold turned.
  rewrite (Rsum_ext n (fun k => s k * co (rsize r') k * ent (orient r') k i) (fun k => Rsum n (fun j => (s k * co (rsize r) k * ent (orient r) k j) * ent m j i))).
  2: { intros k Hk. rewrite (Es k Hk), (Em k i Hk Hi). unfold mmul. rewrite <- Rsum_scal_l. apply Rsum_ext. intros. ring. }
  rewrite Rsum_swap. rewrite Rplus_assoc, <- Rsum_plus. f_equal. apply Rsum_ext. intros j Hj. unfold rb_at.
  rewrite Rsum_scal_r. ring.
Qed.
Lemma rotate_point_spec (r r' : rotbox R) m p : valid_orth n (orient r) -> valid_orth n m -> rb_rotate_point n r m p = Ret r' ->
  rsize r' = rsize r /\ rb_valid r' = rb_valid r && mvalid m && valid p /\ valid_orth n (orient r') /\ mdims n (me (orient r')) /\ forall s, pteq n (rb_at n r' s) (turned m (co p) (rb_at n r s)).
Proof.
  intros Or Om E. unfold rb_rotate_point in E. destruct (prod n (orient r) m) as [o| | |] eqn:P; cbn [obind] in E; try discriminate. injection E as <-.
  pose proof (prod_spec eps n (orient r) m o Or Om P) as S. pose proof (prod_result_orth n _ _ _ _ _ S Or Om) as Oo. destruct S as (D & Em & F & V). split; [reflexivity|]. split; [|split; [auto|split; [auto|]]].
  - unfold rb_valid. cbn [corner0 rsize orient]. rewrite V. unfold point_rotate, vec_add, prod_vm, inv_prod_mv, vec_sub. cbn [valid].
    destruct (valid p), (valid (corner0 r)), (mvalid m), (valid (rsize r)), (mvalid (orient r)); reflexivity.
  - intros s. apply turned_rb; auto. intros i Hi. cbn [corner0]. now apply point_rotate_co.
Qed.
Lemma turned_in (r r' : rotbox R) m p : orthogonal n (ent m) -> (forall s, pteq n (rb_at n r' s) (turned m p (rb_at n r s))) -> forall x, in_rotbox n r x <-> in_rotbox n r' (turned m p x).
Proof.
  intros O E x. split.
  - intros (s & S & X). exists s. split; auto. intros i Hi. rewrite (E s i Hi). apply turned_ext; auto. intros j Hj; auto.
  - intros (s & S & X). exists s. split; auto. intros i Hi.
    assert (Back : forall y, (fun j => p j + mapply n (ent m) (fun k => turned m p y k - p k) j) i = y i).
    { intros y. cbn beta. rewrite (mapply_ext n _ (ent m) _ (mapply n (mtr (ent m)) (fun k => y k - p k)) i Hi (meq_refl n _)).
      - rewrite <- mapply_mmul. rewrite (mapply_ext n _ delta _ _ i Hi O (fun _ _ => eq_refl)). rewrite mapply_delta by auto. ring.
      - intros j Hj. unfold turned, mapply, mtr. rewrite (Rsum_ext n _ (fun k => ent m k j * (y k - p k))) by (intros; ring). ring. }
    rewrite <- (Back x), <- (Back (rb_at n r s)). f_equal. apply mapply_ext; auto; [apply meq_refl|]. intros j Hj. rewrite (X j Hj), (E s j Hj). reflexivity.
Qed.
Lemma turned_open (r r' : rotbox R) m p : orthogonal n (ent m) -> (forall s, pteq n (rb_at n r' s) (turned m p (rb_at n r s))) -> forall x, in_rotbox_open n r x <-> in_rotbox_open n r' (turned m p x).
Proof.
  intros O E x. split.
  - intros (s & S & X). exists s. split; auto. intros i Hi. rewrite (E s i Hi). apply turned_ext; auto. intros j Hj; auto.
  - intros (s & S & X). exists s. split; auto. intros i Hi.
    assert (Back : forall y, (fun j => p j + mapply n (ent m) (fun k => turned m p y k - p k) j) i = y i).
    { intros y. cbn beta. rewrite (mapply_ext n _ (ent m) _ (mapply n (mtr (ent m)) (fun k => y k - p k)) i Hi (meq_refl n _)).
      - rewrite <- mapply_mmul. rewrite (mapply_ext n _ delta _ _ i Hi O (fun _ _ => eq_refl)). rewrite mapply_delta by auto. ring.
      - intros j Hj. unfold turned, mapply, mtr. rewrite (Rsum_ext n _ (fun k => ent m k j * (y k - p k))) by (intros; ring). ring. }
    rewrite <- (Back x), <- (Back (rb_at n r s)). f_equal. apply mapply_ext; auto; [apply meq_refl|]. intros j Hj. rewrite (X j Hj), (E s j Hj). reflexivity.
Qed.

(** ** Boxes seen from the own frame *)
Lemma turned_frame (r : rotbox R) x : pteq n (turned (rot_inverse n (orient r)) (co (corner0 r)) x) (frame n r x).
Proof.
  intros i Hi. unfold turned, frame, edge, mapply. f_equal. apply Rsum_ext. intros j Hj. rewrite (proj2 (inverse_spec eps n (orient r)) j i Hj Hi). unfold mtr. ring.
Qed.
Lemma box_as_rb (b : axisbox R) (c : point R) : forall o : rotmatrix R, meq n (ent o) delta -> box_ordered n b ->
  forall x, in_box n b x <-> in_rotbox n (mkRB (low b) (vec_sub n (high b) (low b)) o) x.
Proof.
  intros o E Ob x. assert (Oo : orthogonal n (ent o)) by (apply (orthogonal_ext n delta); [now apply meq_sym|apply orthogonal_delta]).
  rewrite in_edge by exact Oo. cbn [corner0 rsize orient]. unfold in_box. split; intros X i Hi; specialize (X i Hi); specialize (Ob i Hi); unfold edge in *; cbn [corner0 orient] in *;
  rewrite (mapply_ext n _ delta _ _ i Hi E (fun _ _ => eq_refl)), mapply_delta in * by auto; rewrite sub_co in * by auto; unfold Rmin, Rmax in *; destruct Rle_dec; lra.
Qed.
(** The axis box, seen from the frame of r, is the rotated box the code builds. *)
Lemma own_of_box_in (r : rotbox R) (b : axisbox R) : mvalid (orient r) = true -> orthogonal n (ent (orient r)) -> box_ordered n b -> forall x, in_box n b x <-> in_rotbox n (rb_own_of_box n r b) (frame n r x).
Proof.
  intros V O Ob x. destruct (inverse_spec eps n (orient r)) as [D I].
  set (r0 := mkRB (low b) (vec_sub n (high b) (low b)) (rot_identity (H := Rnum eps) n)).
  rewrite (box_as_rb b (low b) (rot_identity (H := Rnum eps) n) (identity_ent eps n) Ob x). fold r0.
  rewrite (turned_in r0 (rb_own_of_box n r b) (rot_inverse n (orient r)) (co (corner0 r))).
  - split; intros (s & S & X); exists s; (split; [auto|]); intros i Hi; rewrite <- (X i Hi); [symmetry|]; now apply turned_frame.
  - apply (inverse_orth eps n (orient r)); auto. intros _; auto.
  - intros s. apply turned_rb; [|intros; reflexivity|].
    + intros i Hi. unfold rb_own_of_box. cbn [corner0]. now apply point_rotate_co.
    + unfold rb_own_of_box, r0. cbn [orient]. apply meq_sym. eapply meq_trans; [apply mmul_ext; [apply identity_ent|apply meq_refl]|apply mmul_1_l].
Qed.
Lemma respects_rb (r : rotbox R) : respects n (in_rotbox n r). Proof. intros x y E (t & Ht & X). exists t. split; auto. intros i Hi. rewrite <- (E i Hi). auto. Qed.
Lemma respects_rb_open (r : rotbox R) : respects n (in_rotbox_open n r). Proof. intros x y E (t & Ht & X). exists t. split; auto. intros i Hi. rewrite <- (E i Hi). auto. Qed.

Lemma rb_contains_box (r : rotbox R) (b : axisbox R) : 0 <= (eps : R) -> mvalid (orient r) = true -> orthogonal n (ent (orient r)) -> box_ordered n b ->
  (c_rb_box n r b false = true <-> incl (in_box n b) (near_rotbox n eps r)) /\ (rb_thick n r -> (c_rb_box n r b true = true <-> incl (in_box n b) (in_rotbox_open n r))).
Proof.
  intros He V O Ob. unfold c_rb_box. destruct (box_contains_rb (rb_own_box n r) (rb_own_of_box n r b) He) as [A B]. rewrite A, B. split; [|intros T]; symmetry;
  apply (frame_incl n r O); auto using respects_rb, respects_near, respects_box_open, own_of_box_in; intros x; [now apply near_frame|now apply in_frame_open].
Qed.
Lemma rb_contains_rb (outer inner : rotbox R) proper res : 0 <= (eps : R) -> mvalid (orient outer) = true -> orthogonal n (ent (orient outer)) -> valid_orth n (orient inner) ->
  c_rb_rb n outer inner proper = Ret res ->
  (proper = false -> (res = true <-> incl (in_rotbox n inner) (near_rotbox n eps outer))) /\ (proper = true -> rb_thick n outer -> (res = true <-> incl (in_rotbox n inner) (in_rotbox_open n outer))).
Proof.
  intros He V O Oi E. unfold c_rb_rb in E. destruct (rb_rotate_point _ _ _ _) as [r'| | |] eqn:P; cbn [obind] in E; try discriminate. injection E as <-.
  assert (Ov : valid_orth n (rot_inverse n (orient outer))) by (apply inverse_orth; intros _; auto).
  destruct (rotate_point_spec _ _ _ _ Oi Ov P) as (_ & _ & _ & _ & S).
  assert (T : forall x, in_rotbox n inner x <-> in_rotbox n r' (frame n outer x)).
  { intros x. rewrite (turned_in inner r' _ _ (Ov V) S). split; intros (s & Hs & X); exists s; (split; [auto|]); intros i Hi; rewrite <- (X i Hi); [symmetry|]; now apply turned_frame. }
  destruct (box_contains_rb (rb_own_box n outer) r' He) as [A B]. split; intros ->; [|intros Tk]; [rewrite A|rewrite B]; symmetry; apply (frame_incl n outer O); auto using respects_rb, respects_near, respects_box_open; intros x; [now apply near_frame|now apply in_frame_open].
Qed.
End BB.
