(** C49: corner lists of lines and polygons. *)
From Coq Require Import ZArith NArith Reals Bool List Lia Lra Psatz.
From Flocq Require Import Core.Raux Core.Zaux.
From Verif Require Import Base Scalar ConstModel VecModel RotModel QuatModel ShapeModel PolyModel RSpec VecSpec RotSpec QuatSpec ShapeSpec MotionSpec PolySpec RLib MatLib OrdLib VecProofs VecProofs2 VecProofs3 VecProofs4 VecProofs5 ShapeProofs ShapeProofs2 ShapeProofs3 BallProofs SphereProofs ConstProofs MotionProofs MotionProofs2 PolyProofs.
Import ListNotations.
Open Scope R_scope.

(** * Line and Polygon<2> *)
(** Every operation on a corner list, for every number type: inside the range the corners are those of
    the sequence with one inserted, deleted or replaced; outside it the call is undefined. *)
Theorem C49_list : forall T (N : Num T) (l : corners T) i (x : point T),
  ((i <= length l)%nat -> exists l', poly_add l i x = Ret l' /\ poly_num l' = S (poly_num l) /\ inserted l i x l') /\
  ((i < length l)%nat -> exists l', poly_remove l i = Ret l' /\ S (poly_num l') = poly_num l /\ deleted l i l') /\
  ((i < length l)%nat -> exists l', poly_move l i x = Ret l' /\ poly_num l' = poly_num l /\ replaced l i x l') /\
  (forall c, poly_corner l i = Ret c <-> nth_error l i = Some c) /\
  ((length l < i)%nat -> poly_add l i x = Undef) /\
  ((length l <= i)%nat -> poly_remove l i = Undef /\ poly_move l i x = Undef /\ poly_corner l i = Undef).
Proof.
  intros T N l i x. split; [apply insert_spec|]. split; [apply erase_spec|]. split; [apply set_spec|]. split.
  { intros c. unfold poly_corner, oget. destruct (nth_error l i) as [d|]; split; intros E; try discriminate; injection E as ->; reflexivity. }
  split; [apply insert_undef|]. intros L. split; [now apply erase_undef|]. split; [now apply set_undef|now apply get_undef].
Qed.

(** Histories: a sequence of calls, and what it does to a sequence of points. *)
Inductive corner_op (A : Type) := OpAdd (i : nat) (x : A) | OpRemove (i : nat) | OpMove (i : nat) (x : A).
Arguments OpAdd {A} i x.
Arguments OpRemove {A} i.
Arguments OpMove {A} i x.
Definition run_op {T} (l : corners T) (op : corner_op (point T)) : outcome (corners T) :=
  match op with OpAdd i x => poly_add l i x | OpRemove i => poly_remove l i | OpMove i x => poly_move l i x end.
Fixpoint run_ops {T} (l : corners T) (ops : list (corner_op (point T))) : outcome (corners T) :=
  match ops with [] => Ret l | op :: ops' => do l' <- run_op l op; run_ops l' ops' end.
Definition seq_step {A} (l : list A) (op : corner_op A) (l' : list A) : Prop :=
  match op with
  | OpAdd i x => (i <= length l)%nat /\ inserted l i x l'
  | OpRemove i => (i < length l)%nat /\ deleted l i l'
  | OpMove i x => (i < length l)%nat /\ replaced l i x l'
  end.
Inductive seq_run {A} : list A -> list (corner_op A) -> list A -> Prop :=
| seq_nil l : seq_run l [] l
| seq_cons l op l1 ops l2 : seq_step l op l1 -> seq_run l1 ops l2 -> seq_run l (op :: ops) l2.
Lemma run_op_step T (l : corners T) op l' : run_op l op = Ret l' <-> seq_step l op l'.
Proof.
  assert (U : forall (P : list (point T) -> Prop) o a, o = Ret a -> P a -> (forall b, P b -> b = a) -> (o = Ret l' <-> P l')).
  { intros P o a -> Pa Pu. split; [intros E; injection E as <-; auto|intros Q; f_equal; symmetry; auto]. }
  destruct op as [i x|i|i x]; cbn [run_op seq_step].
  - unfold poly_add. destruct (Nat.le_gt_cases i (length l)) as [L|L].
    + destruct (insert_spec l i x L) as (a & E & _ & I). apply (U (fun l' => (i <= length l)%nat /\ inserted l i x l') _ a E); auto. intros b [_ B]. apply nth_ext_error. intros k. now rewrite B, I.
    + rewrite insert_undef by auto. split; [discriminate|intros [? _]; lia].
  - unfold poly_remove. destruct (Nat.lt_ge_cases i (length l)) as [L|L].
    + destruct (erase_spec l i L) as (a & E & _ & I). apply (U (fun l' => (i < length l)%nat /\ deleted l i l') _ a E); auto. intros b [_ B]. apply nth_ext_error. intros k. now rewrite B, I.
    + rewrite erase_undef by auto. split; [discriminate|intros [? _]; lia].
  - unfold poly_move. destruct (Nat.lt_ge_cases i (length l)) as [L|L].
    + destruct (set_spec l i x L) as (a & E & _ & I). apply (U (fun l' => (i < length l)%nat /\ replaced l i x l') _ a E); auto. intros b [_ B]. apply nth_ext_error. intros k. now rewrite B, I.
    + rewrite set_undef by auto. split; [discriminate|intros [? _]; lia].
Qed.
Theorem C49_list_history : forall T (ops : list (corner_op (point T))) (l l' : corners T),
  run_ops l ops = Ret l' <-> seq_run l ops l'.
Proof.
  intros T ops. induction ops as [|op ops IH]; intros l l'; cbn [run_ops].
  - split; [intros E; injection E as <-; constructor|intros E; inversion E; subst; reflexivity].
  - split.
    + destruct (run_op l op) as [l1| | |] eqn:E; cbn [obind]; try discriminate. intros R. apply seq_cons with l1; [now apply run_op_step|now apply IH].
    + intros R. inversion R as [|? ? l1 ? ? St Rs]; subst. apply run_op_step in St. rewrite St. cbn [obind]. now apply IH.
Qed.
Example C49_list_example : run_ops (T := R) [] [OpAdd 0 (mkC [1; 2] true); OpAdd 0 (mkC [3; 4] true); OpMove 1 (mkC [5; 6] true); OpAdd 2 (mkC [7; 8] true); OpRemove 0]
  = Ret [mkC [5; 6] true; mkC [7; 8] true].
Proof. reflexivity. Qed.

(** * Polygon<dim> *)
(** addCorner: on failure nothing changes, and the point is away from the plane of the polygon; on
    success it is the new corner up to the tolerance and every other corner is where it was. *)
Theorem C49_polygon_add_partial : forall (eps : Epsilon) n (p p' : polygon R) i x epsilon b,
  0 <= epsilon -> pg_ok n p -> expand_exact eps n (pplane p) x -> pg_add n p i x epsilon = Ret (b, p') ->
  (b = false -> p' = p /\ valid (pax1 (pplane p)) = true /\
     forall y, in_plane n (pplane p) y -> epsilon * dist2 n (co x) (co (porigin (pplane p))) < dist2 n (co x) y) /\
  (b = true -> pg_ok n p' /\ pg_num p' = S (pg_num p) /\ (i <= pg_num p)%nat /\
     corners_kept eps n p p' None (after_insert i) (fun _ => 0) /\
     exists c, pg_corner n p' i = Ret c /\ valid c = true /\
       (if valid (porigin (pplane p)) then dist2 n (co c) (co x) <= epsilon * dist2 n (co x) (co (porigin (pplane p))) else pteq n (co c) (co x))).
Proof.
  intros eps n p p' i x epsilon b He O Ex E. destruct (add_spec eps n p i x epsilon b p' He O Ex E) as [A B]. split.
  - intros Q. destruct (A Q) as (A1 & A2 & A3). split; auto. split; auto. intros y Y. specialize (A3 y Y). unfold room in A3. destruct (proj1 O) as (O1 & O2 & _). rewrite (O2 (O1 A2)) in A3. exact A3.
  - intros Q. destruct (B Q) as (B1 & B2 & B3 & B4 & c & C & V & D). split; auto. split; auto. split; auto. split; auto. exists c. split; auto. split; auto. unfold room in D. destruct (valid (porigin (pplane p))); auto.
    apply dist_0. unfold dist. replace (dist2 n (co c) (co x)) with 0; [apply sqrt_0|]. pose proof (dist2_nonneg n (co c) (co x)). lra.
Qed.
(** In exact arithmetic no inner product is rounded. *)
Theorem C49_polygon_add_exact : forall n (o : porient R) x, expand_exact 0 n o x.
Proof. intros n o x. unfold expand_exact, exact_dot. rewrite !dot_inner. tauto. Qed.

(** removeCorner, where it returns: the other corners move by at most 2 epsilon times their
    distance to the first one left, if those two are not closer than the tolerance. *)
Theorem C49_polygon_remove_partial : forall (eps : Epsilon) n (p p' : polygon R) i, 0 < (eps : R) -> pg_ok n p -> pg_remove n p i = Ret p' ->
  pg_ok n p' /\ S (pg_num p') = pg_num p /\ (i < pg_num p)%nat /\
  (forall k, (k < pg_num p)%nat -> k <> i -> exists c, pg_corner n p' (after_delete i k) = Ret c) /\
  (apart eps n p i -> corners_kept eps n p p' (Some i) (after_delete i) (fun c => 2 * eps * dist n (co c) (first_corner eps n p i))).
Proof. intros eps n p p' i. apply remove_spec. Qed.
Theorem C49_polygon_move_partial : forall (eps : Epsilon) n (p p' : polygon R) i x epsilon b, 0 < (eps : R) -> 0 <= epsilon -> pg_ok n p ->
  (forall o re, orient_reduce n (pplane p) (pcorners p) (Some i) = Ret (o, re) -> expand_exact eps n o x) ->
  pg_move n p i x epsilon = Ret (b, p') ->
  (b = false -> p' = p) /\
  (b = true -> pg_ok n p' /\ pg_num p' = pg_num p /\ (i < pg_num p)%nat /\
     (forall k, (k < pg_num p)%nat -> exists c, pg_corner n p' k = Ret c) /\
     (apart eps n p i -> corners_kept eps n p p' (Some i) (fun k => k) (fun c => 2 * eps * dist n (co c) (first_corner eps n p i))) /\
     exists c, pg_corner n p' i = Ret c /\ valid c = true /\
       forall o re, orient_reduce n (pplane p) (pcorners p) (Some i) = Ret (o, re) ->
         dist2 n (co c) (co x) <= (if valid (porigin o) then epsilon * dist2 n (co x) (co (porigin o)) else 0)).
Proof. intros eps n p p' i x epsilon b He Hp O Ex E. exact (move_spec eps n p i x epsilon b p' He Hp O Ex E). Qed.

(** Histories of a polygon in space: whatever calls were made, every corner can be read. *)
Inductive pg_history (eps : Epsilon) (n : nat) : polygon R -> Prop :=
| hist_new : pg_history eps n (pg_default n)
| hist_clear p : pg_history eps n p -> pg_history eps n (pg_clear n p)
| hist_add p i x epsilon b p' : pg_history eps n p -> 0 <= epsilon -> expand_exact eps n (pplane p) x ->
    pg_add n p i x epsilon = Ret (b, p') -> pg_history eps n p'
| hist_remove p i p' : pg_history eps n p -> pg_remove n p i = Ret p' -> pg_history eps n p'
| hist_move p i x epsilon b p' : pg_history eps n p -> 0 <= epsilon ->
    (forall o re, orient_reduce n (pplane p) (pcorners p) (Some i) = Ret (o, re) -> expand_exact eps n o x) ->
    pg_move n p i x epsilon = Ret (b, p') -> pg_history eps n p'.
Lemma default_ok (eps : Epsilon) n : pg_ok n (pg_default n).
Proof. split; [unfold frame_ok; cbn; intuition discriminate|constructor]. Qed.
Theorem C49_polygon_history : forall (eps : Epsilon) n (p : polygon R), 0 < (eps : R) -> pg_history eps n p ->
  pg_ok n p /\ forall i, (i < pg_num p)%nat -> exists c, pg_corner n p i = Ret c.
Proof.
  intros eps n p He Hh. assert (O : pg_ok n p).
  { induction Hh as [|p _ _|p i x epsilon b p' _ IH Hp Ex E|p i p' _ IH E|p i x epsilon b p' _ IH Hp Ex E].
    - apply default_ok.
    - apply default_ok.
    - destruct (add_spec eps n p i x epsilon b p' Hp IH Ex E) as [A B]. destruct b; [now apply B|]. destruct (A eq_refl) as [-> _]. exact IH.
    - now apply (remove_spec eps n p i p').
    - destruct (move_spec eps n p i x epsilon b p' He Hp IH Ex E) as [A B]. destruct b; [now apply B|]. rewrite (A eq_refl). exact IH. }
  split; auto. now apply ok_all.
Qed.

(** * What is false *)
(** Lists of literal coordinates. *)
Definition v3 (a b c : R) : coords R := mkC [a; b; c] true.
Lemma sub_v3 (eps : Epsilon) a b c d e f : vec_sub 3 (v3 a b c) (v3 d e f) = v3 (a - d) (b - e) (c - f). Proof. reflexivity. Qed.
Lemma scale_v3 (eps : Epsilon) a b c k : vec_scale 3 (v3 a b c) k = v3 (a * k) (b * k) (c * k). Proof. reflexivity. Qed.
Lemma div_v3 (eps : Epsilon) a b c k : vec_div 3 (v3 a b c) k = v3 (a / k) (b / k) (c / k). Proof. reflexivity. Qed.
Lemma v3_eq a b c d e f : a = d -> b = e -> c = f -> v3 a b c = v3 d e f. Proof. now intros -> -> ->. Qed.
Lemma inner_v3 a b c d e f : inner 3 (co (v3 a b c)) (co (v3 d e f)) = a * d + b * e + c * f.
Proof. unfold inner, v3, co. cbn. ring. Qed.
Lemma bound_v3 a b c B : Rabs a <= B -> Rabs b <= B -> Rabs c <= B -> bounded_by 3 (v3 a b c) B.
Proof. intros A Bb C i Hi. destruct i as [|[|[|i]]]; [exact A|exact Bb|exact C|lia]. Qed.
(** Dot of vectors with coordinates up to 2: exact if 0 or at least 1. *)
Lemma dot_v3 (eps : Epsilon) a b c d e f z : 0 < (eps : R) <= 1 / 8 ->
  Rabs a <= 2 -> Rabs b <= 2 -> Rabs c <= 2 -> Rabs d <= 2 -> Rabs e <= 2 -> Rabs f <= 2 -> a * d + b * e + c * f = z -> z = 0 \/ 1 <= z ->
  dot 3 (v3 a b c) (v3 d e f) = z.
Proof.
  intros He A B C D E F Z Hz. pose proof (inner_v3 a b c d e f) as I. rewrite Z in I.
  pose proof (dot_error eps 3 (v3 a b c) (v3 d e f) 2 2 ltac:(lia) ltac:(lra) eq_refl eq_refl (bound_v3 a b c 2 A B C) (bound_v3 d e f 2 D E F)) as Er.
  destruct (dot_exact_or_zero eps 3 (v3 a b c) (v3 d e f)) as [Q|Q]; [now rewrite Q|]. destruct Hz as [->|Hz]; auto.
  rewrite Q, I in Er. rewrite Rmin_left in Er by lra. replace (0 - z) with (- z) in Er by ring. rewrite Rabs_Ropp, Rabs_pos_eq in Er by lra. nra.
Qed.
Lemma mag_v3 (eps : Epsilon) a b c z : 0 <= z -> a * a + b * b + c * c = z * z -> mag 3 (v3 a b c) = z.
Proof. intros Hz E. rewrite mag_norm. unfold norm, norm2. rewrite inner_v3, E. now apply sqrt_square. Qed.
Lemma sqr_mag_v3 (eps : Epsilon) a b c : sqr_mag 3 (v3 a b c) = a * a + b * b + c * c.
Proof. rewrite sqr_mag_norm2. unfold norm2. apply inner_v3. Qed.
Definition inv3 : coords R := mkC [0; 0; 0] false.
Section Build.
Context (eps : Epsilon).
Hypothesis He : 0 < (eps : R) <= 1 / 8.
Ltac rabs := rewrite Rabs_pos_eq; lra.
Definition og : coords R := v3 0 0 0.
Lemma expand_0 : orient_expand 3 (orient_default 3) og eps = Some (mkO og (coords_default 3) (coords_default 3), pt2 0 0 true).
Proof. reflexivity. Qed.
Lemma expand_1 (i1 i2 : coords R) : valid i1 = false -> orient_expand 3 (mkO og i1 i2) (v3 1 0 0) eps = Some (mkO og (v3 1 0 0) i2, pt2 1 0 true).
Proof.
  intros V. unfold orient_expand, og. cbn [porigin pax0 pax1]. change (valid (v3 0 0 0)) with true. rewrite V. cbn [negb]. rewrite sub_v3.
  rewrite (dot_v3 eps _ _ _ _ _ _ 1); try rabs; [|exact He|ring|right; lra]. rewrite sqr_mag_v3. cbn [nmul nleb Rnum]. rewrite Rle_bool_false by lra.
  rewrite (mag_v3 eps _ _ _ 1) by lra. rewrite div_v3. f_equal. f_equal. f_equal. apply v3_eq; field.
Qed.
(** on the first axis *)
Lemma expand_2 (i2 : coords R) t : 1 <= t <= 5 / 4 -> orient_expand 3 (mkO og (v3 1 0 0) i2) (v3 t 0 0) eps = Some (mkO og (v3 1 0 0) i2, pt2 t 0 true).
Proof.
  intros Ht. unfold orient_expand, og. cbn [porigin pax0 pax1]. change (valid (v3 0 0 0)) with true. change (valid (v3 1 0 0)) with true. cbn [negb]. rewrite sub_v3.
  rewrite (dot_v3 eps _ _ _ _ _ _ (t * t)); try rabs; [|exact He|ring|right; nra]. rewrite sqr_mag_v3. cbn [nmul nleb Rnum]. rewrite Rle_bool_false by nra.
  rewrite (dot_v3 eps _ _ _ _ _ _ t); try rabs; [|exact He|ring|right; lra]. rewrite scale_v3, sub_v3. 
  rewrite (dot_v3 eps _ _ _ _ _ _ 0); try rabs; [|exact He|ring|left; lra]. rewrite Rle_bool_true by nra. reflexivity.
Qed.
(** off it *)
Lemma expand_3 (i2 : coords R) t : t = 0 \/ 1 <= t <= 5 / 4 -> valid i2 = false -> orient_expand 3 (mkO og (v3 1 0 0) i2) (v3 t 1 0) eps = Some (mkO og (v3 1 0 0) (v3 0 1 0), pt2 t 1 true).
Proof.
  intros Ht V. assert (T2 : 0 <= t <= 5 / 4) by lra. assert (Tt : 0 <= t * t <= 25 / 16) by nra. unfold orient_expand, og. cbn [porigin pax0 pax1]. change (valid (v3 0 0 0)) with true. change (valid (v3 1 0 0)) with true. rewrite V. cbn [negb]. rewrite sub_v3.
  rewrite (dot_v3 eps _ _ _ _ _ _ (t * t + 1)); try rabs; [|exact He|ring|right; nra]. rewrite sqr_mag_v3. cbn [nmul nleb Rnum]. rewrite Rle_bool_false by nra.
  rewrite (dot_v3 eps _ _ _ _ _ _ t); try rabs; [|exact He|ring|destruct Ht; lra]. rewrite scale_v3, sub_v3.
  rewrite (dot_v3 eps _ _ _ _ _ _ 1); try rabs; [|exact He|ring|right; lra]. rewrite Rle_bool_false by nra.
  rewrite (mag_v3 eps _ _ _ 1) by nra. rewrite div_v3. f_equal. f_equal. f_equal. apply v3_eq; field.
Qed.
End Build.
Lemma frexp_1 : Rfrexp 1 = 1%Z.
Proof. unfold Rfrexp. rewrite Req_bool_false by lra. change 1 with (bpow radix2 (1 - 1)). apply mag_unique. rewrite Rabs_pos_eq by apply bpow_ge_0. split; [lra|]. apply bpow_lt. lia. Qed.
(** removeCorner can abort: three corners put in through the API, the last one taken out again.  The
    assertion in reduce compares a signed coordinate with the tolerance. *)
Theorem C49_polygon_remove_aborts_refuted : forall eps : Epsilon, 0 < (eps : R) <= 1 / 8 -> exists p1 p2 p3,
  pg_add 3 (pg_default 3) 0 (v3 0 0 0) eps = Ret (true, p1) /\ pg_add 3 p1 0 (v3 1 0 0) eps = Ret (true, p2) /\
  pg_add 3 p2 2 (v3 0 1 0) eps = Ret (true, p3) /\ pg_remove 3 p3 2 = AssertFail.
Proof.
  intros eps He. eexists. eexists. eexists. split; [reflexivity|]. split.
  { unfold pg_add. cbn [pplane pcorners]. change (mkO (set_valid (v3 0 0 0) true) (coords_default 3) (coords_default 3)) with (mkO og (coords_default 3) (coords_default 3)). rewrite (expand_1 eps He) by reflexivity. reflexivity. }
  split.
  { unfold pg_add. cbn [pplane pcorners]. rewrite (expand_3 eps He); [|left; reflexivity|reflexivity]. reflexivity. }
  unfold pg_remove. cbn [pplane pcorners].
  cbn [poly_remove list_erase Nat.ltb Nat.leb length firstn skipn app obind].
  unfold orient_reduce. cbn [skipped length Nat.leb porigin pax0 pax1 skipn]. change (valid og) with true. change (valid (v3 1 0 0)) with true. cbn [oassert negb].
  set (e := reduce_eps _ _).
  assert (Ee : e = eps).
  { unfold e, reduce_eps, reduce_size. cbn [fold_left skipped fst Nat.eqb orb]. unfold pt2, at_. cbn [el nth get]. unfold n0. cbn [nabs nltb nofZ Rnum neps nldexp nfrexp].
    rewrite ?Rabs_R0, ?(Rabs_pos_eq 1) by lra. rewrite (Rlt_bool_true 0 1) by lra. rewrite (Rlt_bool_false 0 0) by lra. rewrite (Rlt_bool_true 0 1) by lra. cbn [pcorners pg_default fold_left fst]. rewrite Rfrexp_0. cbn [bpow]. lra. }
  cbn [reduce_loop skipped Nat.eqb]. unfold reduce_step. rewrite Ee. rewrite sqr_mag_norm2.
  set (d := vec_sub 2 _ _). assert (D0 : co d 0 = -1) by (unfold d; rewrite sub_co by lia; cbn [co at_ el pt2 set_valid get nth]; unfold n0; cbn [nofZ Rnum]; lra).
  assert (D1 : co d 1 = 0) by (unfold d; rewrite sub_co by lia; cbn [co at_ el pt2 set_valid get nth]; unfold n0; cbn [nofZ Rnum]; lra).
  change (at_ d 0) with (co d 0). change (at_ d 1) with (co d 1). cbn [nltb nmul nleb nabs Rnum valid pax1 v3 negb].
  unfold norm2, inner. cbn [Rsum]. rewrite D0, D1.
  rewrite Rlt_bool_false by nra. rewrite Rlt_bool_false by (rewrite Rabs_left; lra). cbn [obind]. rewrite Rlt_bool_true by (rewrite Rabs_R0; lra).
  rewrite Rle_bool_false by lra. reflexivity.
Qed.
Lemma reduce_moves (eps : Epsilon) : 0 < (eps : R) <= 1 / 8 ->
  let l := [pt2 1 0 true; pt2 (1 + 2 * eps) 1 true; pt2 (1 + eps) 0 true] in let r := 1 / (2 * eps) in
  orient_reduce 3 (mkO og (v3 1 0 0) (v3 0 1 0)) l None =
  Ret (mkO (v3 0 (0 + 1 * (0 - r * 1)) 0) (v3 ((1 + 0 * r) / sqrt (1 + r * r)) ((0 + 1 * r) / sqrt (1 + r * r)) ((0 + 0 * r) / sqrt (1 + r * r))) (set_valid (v3 0 1 0) false), ReScale (sqrt (1 + r * r))).
Proof.
  intros He l r. unfold orient_reduce. cbn [skipped length Nat.leb porigin pax0 pax1 skipn l]. change (valid og) with true. change (valid (v3 1 0 0)) with true. change (valid (v3 0 1 0)) with true. cbn [oassert negb].
  set (e := reduce_eps _ _).
  assert (Ee : e = eps * 2).
  { unfold e, reduce_eps, reduce_size, l. cbn [fold_left skipped fst Nat.eqb orb]. unfold pt2, at_. cbn [el nth get]. cbn [nabs nltb nofZ Rnum neps nldexp nfrexp].
    rewrite ?Rabs_R0, ?(Rabs_pos_eq 1), ?(Rabs_pos_eq (1 + eps)), ?(Rabs_pos_eq (1 + 2 * eps)) by lra. rewrite (Rlt_bool_true 0 1) by lra. rewrite (Rlt_bool_true 0 (1 + eps)) by lra. rewrite (Rlt_bool_true 1 (1 + 2 * eps)) by lra. rewrite (Rlt_bool_false (1 + 2 * eps) 1) by lra. rewrite (Rlt_bool_false (1 + eps) 1) by lra. rewrite frexp_1. reflexivity. }
  clearbody e. subst e. cbn [reduce_loop skipped Nat.eqb]. unfold reduce_step at 1. rewrite sqr_mag_norm2.
  set (d := vec_sub 2 _ _). assert (D0 : co d 0 = 2 * eps) by (unfold d; rewrite sub_co by lia; cbn [co at_ el pt2 set_valid get nth]; lra).
  assert (D1 : co d 1 = 1) by (unfold d; rewrite sub_co by lia; cbn [co at_ el pt2 set_valid get nth]; lra).
  change (at_ d 0) with (co d 0). change (at_ d 1) with (co d 1). cbn [nltb nmul nleb nabs Rnum pax1]. change (valid (v3 0 1 0)) with true. cbn [negb].
  unfold norm2, inner. cbn [Rsum]. rewrite D0, D1.
  rewrite Rlt_bool_false by nra. rewrite Rlt_bool_false by (rewrite Rabs_pos_eq; lra). cbn [obind]. rewrite Rlt_bool_false by (rewrite Rabs_pos_eq; lra).
  cbn [obind sv0 sv1 orb ratio ndiv Rnum]. unfold reduce_step. rewrite sqr_mag_norm2.
  set (d2 := vec_sub 2 _ _). assert (F0 : co d2 0 = eps) by (unfold d2; rewrite sub_co by lia; cbn [co at_ el pt2 set_valid get nth]; ring).
  assert (F1 : co d2 1 = 0) by (unfold d2; rewrite sub_co by lia; cbn [co at_ el pt2 set_valid get nth]; lra).
  unfold norm2, inner. cbn [Rsum nltb nmul Rnum]. rewrite F0, F1. rewrite Rlt_bool_true by nra. cbn [obind sv0 sv1 ratio]. fold r.
  unfold at_. cbn [el pt2 set_valid get nth]. rewrite !scale_v3. unfold og. 
  change (vec_add 3 (v3 1 0 0) (v3 (0 * r) (1 * r) (0 * r))) with (v3 (1 + 0 * r) (0 + 1 * r) (0 + 0 * r)).
  rewrite (mag_v3 eps _ _ _ (sqrt (1 + r * r))); [|apply sqrt_pos|rewrite sqrt_sqrt by nra; ring].
  rewrite div_v3. cbn [nsub nmul Rnum]. do 3 f_equal. change (vec_add 3 (v3 0 0 0) (v3 (0 * (0 - r * 1)) (1 * (0 - r * 1)) (0 * (0 - r * 1)))) with (v3 (0 + 0 * (0 - r * 1)) (0 + 1 * (0 - r * 1)) (0 + 0 * (0 - r * 1))). apply v3_eq; ring.
Qed.

(** removeCorner can also move a corner that stays: the corner (1 + eps, 0, 0) of the polygon built here
    jumps half a unit when the corner at the origin is taken out. *)
Theorem C49_polygon_remove_moves_refuted : forall eps : Epsilon, 0 < (eps : R) <= 1 / 8 -> exists p1 p2 p3 p4 p5 c c',
  pg_add 3 (pg_default 3) 0 (v3 0 0 0) eps = Ret (true, p1) /\ pg_add 3 p1 0 (v3 1 0 0) eps = Ret (true, p2) /\
  pg_add 3 p2 1 (v3 (1 + eps) 0 0) eps = Ret (true, p3) /\ pg_add 3 p3 1 (v3 (1 + 2 * eps) 1 0) eps = Ret (true, p4) /\
  pg_corner 3 p4 2 = Ret c /\ (co c 0 = 1 + eps /\ co c 1 = 0 /\ co c 2 = 0) /\
  pg_remove 3 p4 3 = Ret p5 /\ pg_corner 3 p5 2 = Ret c' /\ (co c' 0 = 1 + eps /\ co c' 1 = 1 / 2 /\ co c' 2 = 0).
Proof.
  intros eps He. set (r := 1 / (2 * eps)). assert (Hs : sqrt (1 + r * r) <> 0) by (apply Rgt_not_eq, sqrt_lt_R0; nra).
  set (o' := mkO (v3 0 (0 + 1 * (0 - r * 1)) 0) (v3 ((1 + 0 * r) / sqrt (1 + r * r)) ((0 + 1 * r) / sqrt (1 + r * r)) ((0 + 0 * r) / sqrt (1 + r * r))) (set_valid (v3 0 1 0) false)).
  destruct (convert_def eps 3 (mkO og (v3 1 0 0) (v3 0 1 0)) (pt2 (1 + eps) 0 true)) as (c & C1 & _ & C2). { split; [reflexivity|]. split; discriminate. }
  destruct (convert_def eps 3 o' (pt2 ((1 + eps) * sqrt (1 + r * r)) 0 true)) as (c' & C1' & _ & C2'). { split; [reflexivity|]. split; [discriminate|reflexivity]. }
  exists (mkP (mkO og (coords_default 3) (coords_default 3)) [pt2 0 0 true]), (mkP (mkO og (v3 1 0 0) (coords_default 3)) [pt2 1 0 true; pt2 0 0 true]),
    (mkP (mkO og (v3 1 0 0) (coords_default 3)) [pt2 1 0 true; pt2 (1 + eps) 0 true; pt2 0 0 true]),
    (mkP (mkO og (v3 1 0 0) (v3 0 1 0)) [pt2 1 0 true; pt2 (1 + 2 * eps) 1 true; pt2 (1 + eps) 0 true; pt2 0 0 true]),
    (mkP o' [pt2 (1 * sqrt (1 + r * r)) 0 true; pt2 ((1 + 2 * eps) * sqrt (1 + r * r)) 0 true; pt2 ((1 + eps) * sqrt (1 + r * r)) 0 true]), c, c'.
  split; [reflexivity|]. split. { unfold pg_add. cbn [pplane pcorners]. rewrite (expand_1 eps He) by reflexivity. reflexivity. }
  split. { unfold pg_add. cbn [pplane pcorners]. rewrite (expand_2 eps He) by lra. reflexivity. }
  split. { unfold pg_add. cbn [pplane pcorners]. rewrite (expand_3 eps He); [|right; lra|reflexivity]. reflexivity. }
  split; [exact C1|]. split. { rewrite !C2 by lia. unfold plane_at. cbn. lra. }
  split. { unfold pg_remove. cbn [pplane pcorners]. cbn [poly_remove list_erase Nat.ltb Nat.leb length firstn skipn app obind]. pose proof (reduce_moves eps He) as E. cbn zeta in E. rewrite E. reflexivity. }
  split; [exact C1'|]. rewrite !C2' by lia. unfold plane_at. cbn. repeat split; try (field; auto); try (unfold r in *; field; split; [lra|auto]).
Qed.
(** The hypotheses of the theorems about removing, moving and histories are met by a polygon of two
    corners, at a tolerance above zero. *)
Example C49_polygon_example : exists p p' : polygon R, pg_history (1 / 8) 3 p /\ pg_num p = 2%nat /\ apart (1 / 8) 3 p 0 /\
  pg_remove (H := Rnum (1 / 8)) 3 p 0 = Ret p' /\ pg_num p' = 1%nat.
Proof.
  set (eps := (1 / 8 : R) : Epsilon). assert (He : 0 < (eps : R) <= 1 / 8) by (unfold eps; lra).
  exists (mkP (mkO og (v3 1 0 0) (coords_default 3)) [pt2 1 0 true; pt2 0 0 true]). eexists. split; [|split; [reflexivity|split; [|split; [reflexivity|reflexivity]]]].
  - apply (hist_add eps 3 (mkP (mkO og (coords_default 3) (coords_default 3)) [pt2 0 0 true]) 0 (v3 1 0 0) eps true); [|lra| |].
    + apply (hist_add eps 3 (pg_default 3) 0 (v3 0 0 0) eps true); [constructor|lra| |reflexivity].
      unfold expand_exact. split; [|discriminate]. unfold exact_dot. cbn [pplane pg_default orient_default porigin].
      set (s := vec_sub 3 _ _). assert (Z : inner 3 (co s) (co s) = 0) by (unfold inner; cbn [Rsum]; unfold s; rewrite !sub_co by lia; cbn; unfold n0; cbn; lra).
      rewrite Z. destruct (dot_exact_or_zero eps 3 s s) as [Q|Q]; rewrite Q; [exact Z|reflexivity].
    + unfold expand_exact. split; [|discriminate]. unfold exact_dot. cbn [pplane porigin]. unfold og. rewrite sub_v3, inner_v3. rewrite (dot_v3 eps _ _ _ _ _ _ 1 He); try (rewrite Rabs_pos_eq; lra); lra.
    + unfold pg_add. cbn [pplane pcorners]. rewrite (expand_1 eps He) by reflexivity. reflexivity.
  - intros f c k Ef Nk Ec. left. cbn [Nat.eqb] in Ef. destruct k as [|[|k]]; [congruence| |].
    + rewrite Ef in Ec. injection Ec as <-. apply pteq_refl.
    + unfold pg_corner, poly_corner in Ec. cbn [pcorners] in Ec. exfalso. destruct k; discriminate Ec.
Qed.
Print Assumptions C49_list.
Print Assumptions C49_list_history.
Print Assumptions C49_polygon_add_partial.
Print Assumptions C49_polygon_add_exact.
Print Assumptions C49_polygon_remove_partial.
Print Assumptions C49_polygon_move_partial.
Print Assumptions C49_polygon_history.
Print Assumptions C49_polygon_remove_aborts_refuted.
Print Assumptions C49_polygon_remove_moves_refuted.
