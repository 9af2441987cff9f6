(** C39, C40 and C41 for boxes of doubles.  [dpoint n p] (ShapeSpec): the first n coordinates of p are finite doubles;
    [dval p] and [dbox b]: the same point and box with the real numbers those doubles stand for; [deps]: the library's
    tolerance.  The functions that only compare and choose make no rounding error at all, so their theorems are those for
    real numbers word for word. *)
From Coq Require Import ZArith NArith Reals Bool SpecFloat Lia Lra List Permutation.
From Flocq Require Import Core IEEE754.BinarySingleNaN.
From Verif Require Import Base Scalar OrdLib RLib B64Lib B64Ops RoundLib RSpec ConstModel VecModel ShapeModel IntersectModel VecSpec ShapeSpec VecProofs ShapeProofs ShapeProofs2 ShapeProofs3 BoxDouble PropBox.
Import ListNotations.
Open Scope R_scope.

Definition D2 (x y : Z) : point spec_float := mkC [b64_ofZ x; b64_ofZ y] true.
Lemma D2_double x y : fl (b64_ofZ x) -> fl (b64_ofZ y) -> dpoint 2 (D2 x y).
Proof. intros X Y [|[|i]] Hi; [exact X|exact Y|lia]. Qed.
Ltac small_val k := unfold val; set (e := b64_ofZ k); vm_compute in e; unfold e, SF2R, Defs.F2R; cbn [Defs.Fnum Defs.Fexp SpecFloat.cond_Zopp]; unfold bpow; simpl; lra.
Lemma v0 : val (b64_ofZ 0) = 0. Proof. reflexivity. Qed.
Lemma v1 : val (b64_ofZ 1) = 1. Proof. small_val 1%Z. Qed.
Lemma v2 : val (b64_ofZ 2) = 2. Proof. small_val 2%Z. Qed.
Lemma v3 : val (b64_ofZ 3) = 3. Proof. small_val 3%Z. Qed.
Lemma v9 : val (b64_ofZ 9) = 9. Proof. small_val 9%Z. Qed.
Ltac dco := unfold co, dbox, dval, D2 in *; cbn [low high el map nth] in *; rewrite ?v0, ?v1, ?v2, ?v3, ?v9 in *; lra.
Ltac small_double := apply D2_double; (split; [vm_compute; reflexivity|reflexivity]).

(** * C39 *)
(** Intersect: true for boxes within the tolerance of each other, false for boxes further apart than the tolerance and
    one rounding; with [proper] the answer is exact. *)
Theorem C39_boxes_double : forall (m : libm) n (a b : axisbox spec_float),
  dpoint n (low a) -> dpoint n (high a) -> dpoint n (low b) -> dpoint n (high b) -> box_ordered n (dbox a) -> box_ordered n (dbox b) ->
  ((exists x y, in_box n (dbox a) x /\ in_box n (dbox b) y /\ close n deps x y) -> i_box_box (H := B64 m) n a b false = true) /\
  (i_box_box (H := B64 m) n a b false = true ->
     exists x y, in_box n (dbox a) x /\ in_box n (dbox b) y /\ close n (deps * (1 + bpow Zaux.radix2 (-52))) x y) /\
  (box_thick n (dbox a) -> box_thick n (dbox b) ->
     (i_box_box (H := B64 m) n a b true = true <-> meet (in_box_open n (dbox a)) (in_box_open n (dbox b)))).
Proof.
  intros m n a b A1 A2 B1 B2 Oa Ob. destruct (box_box_double m n a b (conj A1 A2) (conj B1 B2)) as (P & Q & U).
  assert (Ep : 0 <= deps) by (unfold deps; rewrite eps_val; pose proof (bpow_gt_0 Zaux.radix2 (-52)); lra).
  split; [|split].
  - intros (x & y & X & Y & C). apply P. intros i Hi. specialize (X i Hi). specialize (Y i Hi). specialize (C i Hi). apply Rabs_le_inv in C. lra.
  - intros E. assert (Ep' : 0 <= deps * (1 + bpow Zaux.radix2 (-52))) by (apply Rmult_le_pos; [exact Ep|pose proof (bpow_ge_0 Zaux.radix2 (-52)); lra]).
    apply (box_box (deps * (1 + bpow Zaux.radix2 (-52))) n (dbox a) (dbox b)); auto.
    apply (box_box_coord (deps * (1 + bpow Zaux.radix2 (-52)))). intros i Hi. specialize (Q E i Hi). unfold epsilon. lra.
  - intros Ta Tb. rewrite U, <- (box_box_proper 0 n (dbox a) (dbox b)), (box_box_coord_proper 0) by auto. split; intros E i Hi; specialize (E i Hi); lra.
Qed.
Print Assumptions C39_boxes_double.
Example C39_boxes_double_example : let a := mkB (D2 0 0) (D2 2 2) in let b := mkB (D2 1 1) (D2 3 3) in
  dpoint 2 (low a) /\ dpoint 2 (high a) /\ dpoint 2 (low b) /\ dpoint 2 (high b) /\ box_thick 2 (dbox a) /\ box_thick 2 (dbox b) /\ meet (in_box_open 2 (dbox a)) (in_box_open 2 (dbox b)).
Proof.
  cbv zeta. cbn [low high]. do 4 (split; [small_double|]). split; [|split].
  - intros [|[|i]] Hi; [dco|dco|lia].
  - intros [|[|i]] Hi; [dco|dco|lia].
  - exists (fun _ => 3 / 2). split; intros [|[|i]] Hi; try lia; dco.
Qed.

Theorem C39_contains_double : forall (m : libm) n (a b : axisbox spec_float),
  dpoint n (low a) -> dpoint n (high a) -> dpoint n (low b) -> dpoint n (high b) -> box_ordered n (dbox b) ->
  (incl (in_box n (dbox b)) (near_box n deps (dbox a)) -> c_box_box (H := B64 m) n a b false = true) /\
  (c_box_box (H := B64 m) n a b false = true -> incl (in_box n (dbox b)) (near_box n (deps * (1 + bpow Zaux.radix2 (-52))) (dbox a))) /\
  (c_box_box (H := B64 m) n a b true = true <-> incl (in_box n (dbox b)) (in_box_open n (dbox a))).
Proof.
  intros m n a b A1 A2 B1 B2 Ob. destruct (contains_box_double m n a b (conj A1 A2) (conj B1 B2)) as (P & Q & U).
  split; [|split; [|split]].
  - intros I. apply P. intros i Hi.
    pose proof (I (co (low (dbox b))) ltac:(intros j Hj; specialize (Ob j Hj); lra) i Hi).
    pose proof (I (co (high (dbox b))) ltac:(intros j Hj; specialize (Ob j Hj); lra) i Hi). lra.
  - intros E x X i Hi. specialize (Q E i Hi). specialize (X i Hi). lra.
  - intros E x X i Hi. apply U with (i := i) in E; auto. specialize (X i Hi). lra.
  - intros I. apply U. intros i Hi.
    pose proof (I (co (low (dbox b))) ltac:(intros j Hj; specialize (Ob j Hj); lra) i Hi).
    pose proof (I (co (high (dbox b))) ltac:(intros j Hj; specialize (Ob j Hj); lra) i Hi). lra.
Qed.
Print Assumptions C39_contains_double.
Example C39_contains_double_example : let a := mkB (D2 0 0) (D2 9 9) in let b := mkB (D2 1 1) (D2 3 3) in
  dpoint 2 (low a) /\ dpoint 2 (high a) /\ dpoint 2 (low b) /\ dpoint 2 (high b) /\ box_ordered 2 (dbox b) /\ incl (in_box 2 (dbox b)) (in_box_open 2 (dbox a)).
Proof.
  cbv zeta. cbn [low high]. do 4 (split; [small_double|]). split.
  - intros [|[|i]] Hi; [dco|dco|lia].
  - intros x X [|[|i]] Hi; [specialize (X 0%nat ltac:(lia))|specialize (X 1%nat ltac:(lia))|lia]; dco.
Qed.

(** * C40 *)
Lemma dims_dval n p : dims n p -> dims n (dval p).
Proof. unfold dims, dval. cbn [el]. now rewrite map_length. Qed.
Theorem C40_intersection_double : forall (m : libm) n (a b out0 : axisbox spec_float) ok out,
  dpoint n (low a) -> dpoint n (high a) -> dpoint n (low b) -> dpoint n (high b) ->
  box_dims n out0 -> box_ordered n (dbox a) -> box_ordered n (dbox b) -> box_intersection (H := B64 m) n a b out0 = (ok, out) ->
  (ok = true <-> meet (in_box n (dbox a)) (in_box n (dbox b))) /\
  (ok = true -> (forall x, in_box n (dbox out) x <-> in_box n (dbox a) x /\ in_box n (dbox b) x) /\ box_valid out = box_valid a && box_valid b).
Proof.
  intros m n a b out0 ok out A1 A2 B1 B2 [O1 O2] Oa Ob E. pose proof (intersection_double m 0 n a b out0 (conj A1 A2) (conj B1 B2)) as I. rewrite E in I.
  apply (C40_intersection 0 n (dbox a) (dbox b) (dbox out0) ok (dbox out)); auto. split; now apply dims_dval.
Qed.
Print Assumptions C40_intersection_double.
Example C40_intersection_double_example : forall m : libm, let a := mkB (D2 0 0) (D2 2 2) in let b := mkB (D2 1 1) (D2 3 3) in
  exists out, box_intersection (H := B64 m) 2 a b (mkB (D2 0 0) (D2 0 0)) = (true, out) /\ box_dims 2 (mkB (D2 0 0) (D2 0 0)).
Proof. intros m. cbv zeta. exists (mkB (D2 1 1) (D2 2 2)). split; [vm_compute; reflexivity|split; reflexivity]. Qed.

Theorem C40_union_double : forall (m : libm) n (a b : axisbox spec_float),
  dpoint n (low a) -> dpoint n (high a) -> dpoint n (low b) -> dpoint n (high b) -> box_ordered n (dbox a) -> box_ordered n (dbox b) ->
  let u := box_union (H := B64 m) n a b in
  dpoint n (low u) /\ dpoint n (high u) /\
  incl (in_box n (dbox a)) (in_box n (dbox u)) /\ incl (in_box n (dbox b)) (in_box n (dbox u)) /\
  (forall c, incl (in_box n (dbox a)) (in_box n c) -> incl (in_box n (dbox b)) (in_box n c) -> incl (in_box n (dbox u)) (in_box n c)) /\
  box_valid u = box_valid a && box_valid b.
Proof.
  intros m n a b A1 A2 B1 B2 Oa Ob u. destruct (union_double m 0 n a b (conj A1 A2) (conj B1 B2)) as [E [D1 D2']].
  split; [exact D1|split; [exact D2'|]]. change (box_valid u) with (box_valid (dbox u)). unfold u. rewrite E. exact (C40_union 0 n (dbox a) (dbox b) Oa Ob).
Qed.
Print Assumptions C40_union_double.

Theorem C40_bounding_points_double : forall (m : libm) n (c : list (point spec_float)), c <> [] -> (forall p, In p c -> dims n p /\ dpoint n p) ->
  let b := bounding_points (H := B64 m) n c in
  dpoint n (low b) /\ dpoint n (high b) /\
  (forall p, In p c -> in_box n (dbox b) (co (dval p))) /\
  (forall b', (forall p, In p c -> in_box n b' (co (dval p))) -> incl (in_box n (dbox b)) (in_box n b')) /\
  box_ordered n (dbox b) /\ box_valid b = forallb valid c /\
  forall c', Permutation c c' -> dbox (bounding_points (H := B64 m) n c') = dbox b.
Proof.
  intros m n c Nn D b. destruct (points_double m 0 n c Nn ltac:(intros; now apply D)) as [E [D1 D2']].
  destruct (C40_bounding_points 0 n (map dval c)) as (P & Q & O & V & S).
  { now destruct c. }
  { intros p I. apply in_map_iff in I. destruct I as (q & <- & I). apply dims_dval. now apply D. }
  split; [exact D1|split; [exact D2'|]]. change (box_valid b) with (box_valid (dbox b)). unfold b. rewrite E.
  split; [|split; [|split; [exact O|split]]].
  - intros p I. apply P. now apply in_map.
  - intros b' I. apply Q. intros p J. apply in_map_iff in J. destruct J as (q & <- & J). now apply I.
  - rewrite V. clear. induction c as [|x c IH]; cbn; [reflexivity|now rewrite IH].
  - intros c' Pm. assert (D' : forall p, In p c' -> dpoint n p) by (intros p I; apply D; apply (Permutation_in p (Permutation_sym Pm) I)).
    assert (N' : c' <> []) by (intros ->; apply Permutation_sym, Permutation_nil in Pm; easy).
    destruct (points_double m 0 n c' N' D') as [E' _]. rewrite E'. apply S. now apply Permutation_map.
Qed.
Print Assumptions C40_bounding_points_double.
Example C40_bounding_points_double_example : [D2 1 2; D2 0 5; D2 (-1) 3] <> [] /\ forall p, In p [D2 1 2; D2 0 5; D2 (-1) 3] -> dims 2 p /\ dpoint 2 p.
Proof. split; [discriminate|]. intros p [<-|[<-|[<-|[]]]]; (split; [reflexivity|small_double]). Qed.

Theorem C40_bounding_boxes_double : forall (m : libm) n (c : list (axisbox spec_float)), c <> [] ->
  (forall a, In a c -> box_dims n a /\ dpoint n (low a) /\ dpoint n (high a) /\ box_ordered n (dbox a)) ->
  let b := bounding_boxes (H := B64 m) n c in
  dpoint n (low b) /\ dpoint n (high b) /\
  (forall a, In a c -> incl (in_box n (dbox a)) (in_box n (dbox b))) /\
  (forall b', (forall a, In a c -> incl (in_box n (dbox a)) (in_box n b')) -> incl (in_box n (dbox b)) (in_box n b')) /\
  box_ordered n (dbox b) /\ box_valid b = forallb box_valid c /\
  forall c', Permutation c c' -> dbox (bounding_boxes (H := B64 m) n c') = dbox b.
Proof.
  intros m n c Nn D b.
  assert (DB : forall a, In a c -> dboxp n a) by (intros a I; split; now apply D).
  destruct (boxes_double m 0 n c Nn DB) as [E [D1 D2']].
  destruct (C40_bounding_boxes 0 n (map dbox c)) as (P & Q & O & V & S).
  { now destruct c. }
  { intros p I. apply in_map_iff in I. destruct I as (q & <- & I). destruct (D q I) as ([B1 B2] & _ & _ & Od). split; auto. split; now apply dims_dval. }
  split; [exact D1|split; [exact D2'|]]. change (box_valid b) with (box_valid (dbox b)). unfold b. rewrite E.
  split; [|split; [|split; [exact O|split]]].
  - intros p I. apply P. now apply in_map.
  - intros b' I. apply Q. intros p J. apply in_map_iff in J. destruct J as (q & <- & J). now apply I.
  - rewrite V. clear. induction c as [|x c IH]; cbn; [reflexivity|now rewrite IH].
  - intros c' Pm. assert (D' : forall p, In p c' -> dboxp n p) by (intros p I; apply DB; apply (Permutation_in p (Permutation_sym Pm) I)).
    assert (N' : c' <> []) by (intros ->; apply Permutation_sym, Permutation_nil in Pm; easy).
    destruct (boxes_double m 0 n c' N' D') as [E' _]. rewrite E'. apply S. now apply Permutation_map.
Qed.
Print Assumptions C40_bounding_boxes_double.
Example C40_bounding_boxes_double_example : let c := [mkB (D2 0 0) (D2 2 2); mkB (D2 1 1) (D2 3 3)] in
  c <> [] /\ forall a, In a c -> box_dims 2 a /\ dpoint 2 (low a) /\ dpoint 2 (high a) /\ box_ordered 2 (dbox a).
Proof.
  split; [discriminate|]. intros a [<-|[<-|[]]]; (split; [split; reflexivity|]); cbn [low high]; (split; [small_double|split; [small_double|]]);
  intros [|[|i]] Hi; try lia; dco.
Qed.

(** * C41 *)
Theorem C41_set_corners_double : forall (m : libm) n (p q : point spec_float), dpoint n p -> dpoint n q ->
  let b := box_corners (H := B64 m) n p q false in
  dpoint n (low b) /\ dpoint n (high b) /\
  (forall i, (i < n)%nat -> co (low (dbox b)) i = Rmin (co (dval p) i) (co (dval q) i) /\ co (high (dbox b)) i = Rmax (co (dval p) i) (co (dval q) i)) /\
  box_ordered n (dbox b) /\ dbox b = dbox (box_corners (H := B64 m) n q p false).
Proof.
  intros m n p q P Q b. destruct (corners_double m 0 n p q P Q) as [E [D1 D2']]. destruct (corners_double m 0 n q p Q P) as [E' _].
  destruct (C41_set_corners 0 n (dval p) (dval q)) as (A & O & _ & _ & _ & S).
  split; [exact D1|split; [exact D2'|]]. unfold b. rewrite E, E'. auto.
Qed.
Print Assumptions C41_set_corners_double.
Example C41_set_corners_double_example : dpoint 2 (D2 3 1) /\ dpoint 2 (D2 1 4). Proof. split; small_double. Qed.

Theorem C41_corners_double : forall (m : libm) n (b : axisbox spec_float), dpoint n (low b) -> dpoint n (high b) ->
  forall c, dpoint n (box_corner (H := B64 m) n b c) /\ dval (box_corner (H := B64 m) n b c) = box_corner (H := Rnum 0) n (dbox b) c /\
    (box_ordered n (dbox b) -> (c < 2 ^ N.of_nat n)%N -> in_box n (dbox b) (co (dval (box_corner (H := B64 m) n b c)))).
Proof.
  intros m n b L U c. destruct (corner_double m 0 n b c (conj L U)) as [E D]. split; auto. split; auto. intros O Hc. rewrite E.
  now apply (proj1 (C41_corners 0 n (dbox b) O) c Hc).
Qed.
Print Assumptions C41_corners_double.
