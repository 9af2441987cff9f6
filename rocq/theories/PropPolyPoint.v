(** C50: whether a polygon in the plane contains a point. *)
From Coq Require Import Reals List Bool Lra Lia Psatz Permutation Classical.
From Flocq Require Import Core.Raux.
From Verif Require Import Base Scalar ConstModel VecModel VecSpec RSpec RLib ConstProofs ShapeSpec ShapeModel PolyModel PolyIntersectModel EvenOddSpec EvenOddProofs.
Import ListNotations.
Open Scope R_scope.

(** The test returns for every polygon that has a corner, in any arithmetic; without one it forms a pointer
    before the first element. *)
Theorem C50_defined : forall {T} `{Num T} (l : list (point T)) p proper,
  (l <> [] -> exists b, i_pg2_point l p proper = Ret b) /\ (l = [] -> i_pg2_point l p proper = Undef).
Proof. intros T H l p proper. split; [|now intros ->]. destruct l as [|c l]; [easy|]. intros _. eexists. reflexivity. Qed.

(** The corner the list starts with does not matter, in any arithmetic. *)
Theorem C50_start : forall {T} `{Num T} (l1 l2 : list (point T)) p proper, i_pg2_point (l1 ++ l2) p proper = i_pg2_point (l2 ++ l1) p proper.
Proof.
  intros T H l1 l2 p proper. destruct (l1 ++ l2) as [|c l] eqn:E.
  - apply app_eq_nil in E. destruct E as [-> ->]. reflexivity.
  - rewrite <- E. apply point_perm; [rewrite E; easy| |apply sides_rotate]. intros Z. apply app_eq_nil in Z. destruct Z as [-> ->]. discriminate.
Qed.
Lemma list_eq_nil_dec {A} (l : list A) : {l = []} + {l <> []}.
Proof. destruct l; [now left|right; easy]. Qed.
(** Nor does the direction in which the corners are listed. *)
Theorem C50_orientation : forall (eps : Epsilon) (l : list (point R)) p proper, i_pg2_point (rev l) p proper = i_pg2_point l p proper.
Proof.
  intros eps l p proper. unfold point in *. destruct (list_eq_nil_dec l) as [->|N]; [reflexivity|].
  assert (N' : rev l <> []). { intros Z. apply (f_equal (@rev _)) in Z. rewrite rev_involutive in Z. easy. }
  rewrite !point_sides by auto. rewrite (existsb_perm _ _ _ (sides_rev l)), (par_perm _ _ _ (sides_rev l)), existsb_map, par_map.
  rewrite (existsb_ext_ _ (touches p)) by (intros; apply touches_swap). rewrite (par_ext _ (passes p)) by (intros; apply passes_swap). reflexivity.
Qed.

(** The answer is that of the even-odd rule, whichever ray it is applied with, for every point farther than the tolerance
    from the boundary at its height; proper or not. *)
Theorem C50_even_odd : forall (eps : Epsilon) (l : list (point R)) (p : point R) proper b, 0 <= (eps : R) ->
  clear_of eps l (co p) -> i_pg2_point l p proper = Ret b -> even_odd l (co p) b.
Proof. intros eps l p proper b. apply point_even_odd. Qed.
(** In exact arithmetic that is every point off the boundary. *)
Theorem C50_even_odd_exact : forall (l : list (point R)) (p : point R) proper b,
  ~ on_boundary l (co p) -> i_pg2_point (H := Rnum 0) l p proper = Ret b -> even_odd l (co p) b.
Proof.
  intros l p proper b N E. apply (point_even_odd 0 l p proper b); auto; [lra|]. intros x B X. apply Rmult_lt_reg_l with 1; [lra|].
  replace (2 * 0 * Rmax 1 (Rabs (co p 0))) with 0 by ring. rewrite !Rmult_1_l. apply Rabs_pos_lt. intros Z. apply N.
  destruct B as (c & d & I & s & S & Q). exists c, d. split; auto. exists s. split; auto. intros i Hi. rewrite <- (Q i Hi). destruct i as [|[|i]]; [lra|auto|lia].
Qed.
(** The rule gives one answer: there are rays to apply it with, and all of them agree. *)
Theorem C50_rule : forall (l : list (point R)) (p : pt), ~ on_boundary l p -> exists b, even_odd l p b /\ forall b', even_odd l p b' -> b' = b.
Proof.
  intros l p N. exists (parity p (1, 0) l). assert (E : even_odd l p (parity p (1, 0) l)) by (apply parity_even_odd; auto; intros X; injection X; lra).
  split; auto. intros b' E'. destruct (clear_exists l p N) as (d & D). destruct (counts_exist (meets_ray p d) (sides l) ltac:(intros; apply classic)) as (n & C).
  rewrite (E d n D C). exact (E' d n D C).
Qed.

(** For a rectangle the answer is whether the point is inside. *)
Definition rectangle (x0 y0 x1 y1 : R) : list (coords R) := [mkC [x0; y0] true; mkC [x1; y0] true; mkC [x1; y1] true; mkC [x0; y1] true].
Lemma rect_passes (eps : Epsilon) x0 y0 x1 y1 (p : coords R) : y0 < y1 ->
  par (passes p) (sides (rectangle x0 y0 x1 y1)) = Rle_bool y0 (co p 1) && Rlt_bool (co p 1) y1 && xorb (Rlt_bool (co p 0) x0) (Rlt_bool (co p 0) x1).
Proof.
  intros Y. unfold sides, rectangle, par. cbn [combine app fold_right]. unfold passes. rewrite !spans_R, !cut_R. cbn [fst snd co el nth].
  change (at_ p 0) with (co p 0). fold (co p 0) (co p 1). cbn [nltb Rnum]. change (nth 0 (el p) 0) with (co p 0). change (nth 1 (el p) 0) with (co p 1).
  replace (x1 + (x1 - x1) * (co p 1 - y0) / (y1 - y0)) with x1 by (field; lra). replace (x0 + (x0 - x0) * (co p 1 - y1) / (y0 - y1)) with x0 by (field; lra).
  unfold Rle_bool. destruct (Rlt_bool_spec (co p 1) y0), (Rlt_bool_spec (co p 1) y1), (Rcompare_spec y0 (co p 1)); try lra; cbn; try reflexivity;
  destruct (Rlt_bool (co p 0) x0), (Rlt_bool (co p 0) x1); reflexivity.
Qed.
Theorem C50_rectangle : forall x0 y0 x1 y1 (p : point R) proper, x0 < x1 -> y0 < y1 -> ~ on_boundary (rectangle x0 y0 x1 y1) (co p) ->
  exists b, i_pg2_point (H := Rnum 0) (rectangle x0 y0 x1 y1) p proper = Ret b /\ (b = true <-> x0 < co p 0 < x1 /\ y0 < co p 1 < y1).
Proof.
  intros x0 y0 x1 y1 p proper X Y N. pose proof (point_sides 0 (rectangle x0 y0 x1 y1) p proper ltac:(discriminate)) as E.
  assert (existsb (touches (H := Rnum 0) p) (sides (rectangle x0 y0 x1 y1)) = false) as Q.
  { apply not_true_is_false. intros Z. apply existsb_exists in Z. destruct Z as ((a & b) & I & Z). unfold touches in Z. apply andb_true_iff in Z. destruct Z as [S Z].
    apply equal_R_exact0 in Z. apply N. exists a, b. split; auto. destruct (cut_on_side 0 p a b S) as (s & S' & Cu). exists s. split; auto. intros i Hi. rewrite <- (Cu i Hi). destruct i as [|[|i]]; [exact Z|auto|lia]. }
  rewrite Q in E. eexists. split; [exact E|]. pose proof (rect_passes 0 x0 y0 x1 y1 p Y) as P. unfold point in *. rewrite P.
  assert (B : forall s a b, In (a, b) (sides (rectangle x0 y0 x1 y1)) -> 0 <= s <= 1 -> co p 0 = (1 - s) * co a 0 + s * co b 0 -> co p 1 = (1 - s) * co a 1 + s * co b 1 -> False).
  { intros s a b I S E0 E1. apply N. exists a, b. split; auto. exists s. split; auto. intros i Hi. destruct i as [|[|i]]; [auto|auto|lia]. }
  rewrite !andb_true_iff, Rleb_iff, Rltb_iff. split.
  - intros [[P0 P1] Z]. destruct (Rlt_bool_spec (co p 0) x0) as [Z0|Z0], (Rlt_bool_spec (co p 0) x1) as [Z1|Z1]; try discriminate; try lra.
    assert (D : forall u v w, u < v -> u <= w <= v -> 0 <= (w - u) / (v - u) <= 1). { intros u v w U W. split; [apply Rle_mult_inv_pos; lra|]. apply Rmult_le_reg_r with (v - u); [lra|]. unfold Rdiv. rewrite Rmult_assoc, Rinv_l by lra. lra. }
    assert (co p 0 <> x0). { intros F. apply (B ((y1 - co p 1) / (y1 - y0)) (mkC [x0; y1] true) (mkC [x0; y0] true)); [cbn; auto| | |].
      - replace ((y1 - co p 1) / (y1 - y0)) with ((- co p 1 - - y1) / (- y0 - - y1)) by (field; lra). apply D; lra.
      - cbn [co el nth]. unfold co in F. rewrite <- F. unfold co. ring.
      - cbn [co el nth]. change (nth 1 (el p) 0) with (co p 1). field. lra. }
    assert (co p 1 <> y0). { intros F. apply (B ((co p 0 - x0) / (x1 - x0)) (mkC [x0; y0] true) (mkC [x1; y0] true)); [cbn; auto| | |].
      - apply D; lra.
      - cbn [co el nth]. change (nth 0 (el p) 0) with (co p 0). field. lra.
      - cbn [co el nth]. change (nth 1 (el p) 0) with (co p 1). rewrite F. ring. }
    lra.
  - intros [P0 P1]. split; [lra|]. rewrite (Rlt_bool_false (co p 0) x0), (Rlt_bool_true (co p 0) x1) by lra. reflexivity.
Qed.

(** A polygon with a notch: the corner list (0,0) (4,0) (4,4) (2,1) (0,4).  The point (2,2) is in the notch, (1,1) is inside, and both
    are clear of the boundary at tolerance 1/100. *)
Definition notched : list (coords R) := [mkC [0; 0] true; mkC [4; 0] true; mkC [4; 4] true; mkC [2; 1] true; mkC [0; 4] true].
Lemma notched_clear x y : (x = 2 /\ y = 2) \/ (x = 1 /\ y = 1) -> clear_of (1 / 100) notched (co (mkC [x; y] true)).
Proof.
  intros Hxy z (a & b & I & s & S & E) Z. pose proof (E 0%nat ltac:(lia)) as E0. pose proof (E 1%nat ltac:(lia)) as E1.
  change (co (mkC [x; y] true) 0) with x. change (co (mkC [x; y] true) 1) with y in Z. rewrite Rmax_right.
  2:{ rewrite Rabs_pos_eq; lra. }
  rewrite (Rabs_pos_eq x) by lra.
  assert (G : 1 / 3 <= Rabs (x - z 0%nat)); [|lra].
  unfold notched, sides in I. cbn [app combine In] in I.
  decompose [or] I; clear I; try contradiction; match goal with H : (_, _) = (a, b) |- _ => injection H as <- <- end; cbn [co el nth] in E0, E1;
  destruct Hxy as [[-> ->]|[-> ->]]; apply Rabs_ge; (left; lra) || (right; lra).
Qed.
Example C50_example : clear_of (1 / 100) notched (co (mkC [2; 2] true)) /\ clear_of (1 / 100) notched (co (mkC [1; 1] true)) /\
  i_pg2_point (H := Rnum (1 / 100)) notched (mkC [2; 2] true) false = Ret false /\ i_pg2_point (H := Rnum (1 / 100)) notched (mkC [1; 1] true) false = Ret true.
Proof.
  pose proof (notched_clear 2 2 ltac:(lra)) as C2. pose proof (notched_clear 1 1 ltac:(lra)) as C1. split; auto. split; auto.
  assert (F : forall p, clear_of (1 / 100) notched (co p) -> existsb (touches (H := Rnum (1 / 100)) p) (sides notched) = false).
  { intros p C. apply not_true_is_false. intros X. apply existsb_exists in X. destruct X as (e & I & X). rewrite (clear_not_touching (1 / 100) notched p e ltac:(lra) C I) in X. discriminate. }
  rewrite !(point_sides (1 / 100)) by discriminate. rewrite (F _ C1), (F _ C2).
  split; f_equal; unfold par, notched, sides; cbn [app combine fold_right]; unfold passes; rewrite !spans_R; cbn [fst snd co el nth];
  repeat match goal with |- context [Rlt_bool ?x ?y] => first [rewrite (Rlt_bool_true x y) by lra | rewrite (Rlt_bool_false x y) by lra] end; cbn [xorb andb];
  rewrite !cut_R; cbn [fst snd co el nth]; unfold at_; cbn [get nth el nltb Rnum];
  repeat match goal with |- context [Rlt_bool ?x ?y] => first [rewrite (Rlt_bool_true x y) by lra | rewrite (Rlt_bool_false x y) by lra] end; reflexivity.
Qed.
Print Assumptions C50_defined.
Print Assumptions C50_start.
Print Assumptions C50_orientation.
Print Assumptions C50_even_odd.
Print Assumptions C50_even_odd_exact.
Print Assumptions C50_rule.
Print Assumptions C50_rectangle.
