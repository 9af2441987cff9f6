(** Boxes of doubles: the functions that only compare and choose commute with the passage to real numbers. *)
From Coq Require Import ZArith NArith Reals Bool SpecFloat Lia Lra List Permutation.
From Flocq Require Import Core IEEE754.BinarySingleNaN.
From Verif Require Import Base Scalar OrdLib RLib B64Lib B64Ops RoundLib RSpec ConstModel VecModel ShapeModel IntersectModel VecSpec ShapeSpec VecProofs ShapeProofs ShapeProofs2 ShapeProofs3.
Import ListNotations.
Open Scope R_scope.

Section D.
Variable m : libm.
Variable eps : Epsilon.
Variable n : nat.

Lemma dp p i : dpoint n p -> (i < n)%nat -> fl (at_ (H := B64 m) p i).
Proof. intros D Hi. apply (D i Hi). Qed.
Lemma dat p i : val (at_ (H := B64 m) p i) = at_ (H := Rnum eps) (dval p) i.
Proof. rewrite <- (dval_co m). reflexivity. Qed.
Lemma max_val x y : fl x -> fl y -> val (float_max (H := B64 m) x y) = float_max (H := Rnum eps) (val x) (val y) /\ fl (float_max (H := B64 m) x y).
Proof.
  intros Fx Fy. unfold float_max. cbn [nltb B64 Rnum]. rewrite ltb_ok by auto. destruct (Rlt_bool (val y) (val x)); auto.
Qed.
Lemma min_val x y : fl x -> fl y -> val (float_min (H := B64 m) x y) = float_min (H := Rnum eps) (val x) (val y) /\ fl (float_min (H := B64 m) x y).
Proof.
  intros Fx Fy. unfold float_min. cbn [nltb B64 Rnum]. rewrite ltb_ok by auto. destruct (Rlt_bool (val x) (val y)); auto.
Qed.
Lemma dval_tab (f : nat -> spec_float) (g : nat -> R) b : (forall i, (i < n)%nat -> val (f i) = g i) ->
  dval (mkC (tab n f) b) = mkC (tab n g) b.
Proof.
  intros E. unfold dval. cbn [el valid]. f_equal. unfold tab. rewrite map_map. apply map_ext_in. intros i Hi. apply in_seq in Hi. apply E. lia.
Qed.
Lemma dpoint_tab (f : nat -> spec_float) b : (forall i, (i < n)%nat -> fl (f i)) -> dpoint n (mkC (tab n f) b).
Proof. intros F i Hi. cbn [el]. rewrite nth_tab by auto. exact (F i Hi). Qed.

Definition dboxp (b : axisbox spec_float) : Prop := dpoint n (low b) /\ dpoint n (high b).

Lemma union_double a b : dboxp a -> dboxp b ->
  dbox (box_union (H := B64 m) n a b) = box_union (H := Rnum eps) n (dbox a) (dbox b) /\ dboxp (box_union (H := B64 m) n a b).
Proof.
  intros [A1 A2] [B1 B2]. unfold box_union, dbox, dboxp. cbn [low high]. split.
  - f_equal; apply dval_tab; intros i Hi; rewrite <- !dat; [apply min_val|apply max_val]; now apply dp.
  - split; apply dpoint_tab; intros i Hi; [apply min_val|apply max_val]; now apply dp.
Qed.

Lemma corners_double p q : dpoint n p -> dpoint n q ->
  dbox (box_corners (H := B64 m) n p q false) = box_corners (H := Rnum eps) n (dval p) (dval q) false /\ dboxp (box_corners (H := B64 m) n p q false).
Proof.
  intros P Q. unfold box_corners, dbox, dboxp. cbn [low high].
  assert (C : forall i, (i < n)%nat -> nltb (Num := B64 m) (at_ (H := B64 m) q i) (at_ (H := B64 m) p i) =
     nltb (Num := Rnum eps) (at_ (H := Rnum eps) (dval q) i) (at_ (H := Rnum eps) (dval p) i)).
  { intros i Hi. rewrite <- !dat. cbn [nltb B64 Rnum]. apply ltb_ok; now apply dp. }
  split.
  - f_equal; apply dval_tab; intros i Hi; rewrite C by auto; rewrite <- !dat; match goal with |- context [if ?c then _ else _] => destruct c end; reflexivity.
  - split; apply dpoint_tab; intros i Hi; match goal with |- context [if ?c then _ else _] => destruct c end; now apply dp.
Qed.

Lemma corner_double b c : dboxp b -> dval (box_corner (H := B64 m) n b c) = box_corner (H := Rnum eps) n (dbox b) c /\ dpoint n (box_corner (H := B64 m) n b c).
Proof.
  intros [L U]. unfold box_corner. destruct (c <? 1)%N; [split; [reflexivity|exact L]|]. destruct (_ <=? c)%N; [split; [reflexivity|exact U]|]. split.
  - unfold dbox. cbn [low high]. apply dval_tab. intros i Hi. rewrite <- !dat. destruct (N.testbit c (N.of_nat i)); reflexivity.
  - apply dpoint_tab. intros i Hi. destruct (N.testbit c (N.of_nat i)); now apply dp.
Qed.

Lemma fold_double {A B} (f : A -> B) (P : A -> Prop) (l0 h0 : point spec_float)
  (g1 : A -> point spec_float) (g2 : A -> point spec_float) (k1 : B -> point R) (k2 : B -> point R) (l : list A) :
  (forall x, In x l -> P x) -> (forall x, P x -> dpoint n (g1 x) /\ dpoint n (g2 x) /\ k1 (f x) = dval (g1 x) /\ k2 (f x) = dval (g2 x)) ->
  dpoint n l0 -> dpoint n h0 ->
  let s64 := fold_left (fun (st : point spec_float * point spec_float) (x : A) => let (lo, hi) := st in
        (mkC (tab n (fun j => float_min (H := B64 m) (at_ (H := B64 m) lo j) (at_ (H := B64 m) (g1 x) j))) (valid lo && valid (g1 x)),
         mkC (tab n (fun j => float_max (H := B64 m) (at_ (H := B64 m) hi j) (at_ (H := B64 m) (g2 x) j))) (valid hi && valid (g2 x)))) l (l0, h0) in
  let sR := fold_left (fun (st : point R * point R) (x : B) => let (lo, hi) := st in
        (mkC (tab n (fun j => float_min (H := Rnum eps) (at_ (H := Rnum eps) lo j) (at_ (H := Rnum eps) (k1 x) j))) (valid lo && valid (k1 x)),
         mkC (tab n (fun j => float_max (H := Rnum eps) (at_ (H := Rnum eps) hi j) (at_ (H := Rnum eps) (k2 x) j))) (valid hi && valid (k2 x)))) (map f l) (dval l0, dval h0) in
  dval (fst s64) = fst sR /\ dval (snd s64) = snd sR /\ dpoint n (fst s64) /\ dpoint n (snd s64).
Proof.
  intros HP HG. revert l0 h0. induction l as [|x l IH]; intros l0 h0 D0 D1; cbn [fold_left map fst snd]; [auto|].
  destruct (HG x (HP x (or_introl eq_refl))) as (G1 & G2 & K1 & K2).
  set (l1 := mkC _ _). set (h1 := mkC (tab n (fun j => float_max _ _)) _).
  assert (E1 : dpoint n l1 /\ dval l1 = mkC (tab n (fun j => float_min (H := Rnum eps) (at_ (H := Rnum eps) (dval l0) j) (at_ (H := Rnum eps) (k1 (f x)) j))) (valid (dval l0) && valid (k1 (f x)))).
  { unfold l1. split; [apply dpoint_tab; intros i Hi; apply min_val; now apply dp|].
    rewrite K1. apply dval_tab. intros i Hi. rewrite <- !dat. apply min_val; now apply dp. }
  assert (E2 : dpoint n h1 /\ dval h1 = mkC (tab n (fun j => float_max (H := Rnum eps) (at_ (H := Rnum eps) (dval h0) j) (at_ (H := Rnum eps) (k2 (f x)) j))) (valid (dval h0) && valid (k2 (f x)))).
  { unfold h1. split; [apply dpoint_tab; intros i Hi; apply max_val; now apply dp|].
    rewrite K2. apply dval_tab. intros i Hi. rewrite <- !dat. apply max_val; now apply dp. }
  destruct E1 as [P1 Q1]. destruct E2 as [P2 Q2]. rewrite <- Q1, <- Q2. apply IH; auto. intros y Hy. apply HP. now right.
Qed.
Lemma ordered_double (s : point spec_float * point spec_float) (t : point R * point R) :
  dval (fst s) = fst t -> dval (snd s) = snd t -> dpoint n (fst s) -> dpoint n (snd s) ->
  dbox (let (lo, hi) := s in box_corners (H := B64 m) n lo hi true) = (let (lo, hi) := t in box_corners (H := Rnum eps) n lo hi true) /\
  dboxp (let (lo, hi) := s in box_corners (H := B64 m) n lo hi true).
Proof.
  destruct s as [s1 s2], t as [t1 t2]. cbn [fst snd]. intros <- <- D1 D2. unfold box_corners, dbox, dboxp. cbn [low high]. auto.
Qed.
Lemma points_double c : c <> [] -> (forall p, In p c -> dpoint n p) ->
  dbox (bounding_points (H := B64 m) n c) = bounding_points (H := Rnum eps) n (map dval c) /\ dboxp (bounding_points (H := B64 m) n c).
Proof.
  destruct c as [|p rest]; [congruence|]. intros _ D. unfold bounding_points. cbn [map].
  pose proof (fold_double dval (dpoint n) p p (fun x => x) (fun x => x) (fun x => x) (fun x => x) rest) as F. cbv zeta beta in F.
  destruct F as (F1 & F2 & F3 & F4); try (apply D; now left); [intros x Hx; apply D; now right|auto|].
  exact (ordered_double _ _ F1 F2 F3 F4).
Qed.
Lemma boxes_double c : c <> [] -> (forall b, In b c -> dboxp b) ->
  dbox (bounding_boxes (H := B64 m) n c) = bounding_boxes (H := Rnum eps) n (map dbox c) /\ dboxp (bounding_boxes (H := B64 m) n c).
Proof.
  destruct c as [|p rest]; [congruence|]. intros _ D. unfold bounding_boxes. cbn [map].
  pose proof (fold_double dbox dboxp (low p) (high p) low high low high rest) as F. cbv zeta beta in F.
  destruct F as (F1 & F2 & F3 & F4); try (apply D; now left); [intros x Hx; apply D; now right|intros x [X1 X2]; auto|].
  exact (ordered_double _ _ F1 F2 F3 F4).
Qed.

Lemma map_upd (l : list spec_float) i x : map val (upd l i x) = upd (map val l) i (val x).
Proof. revert i. induction l as [|y l IH]; intros [|i]; simpl; auto. now rewrite IH. Qed.
Lemma loop_double a b : dboxp a -> dboxp b -> forall k i lo hi, (i + k <= n)%nat ->
  let '(ok, l, h) := intersection_loop (H := B64 m) a b i k lo hi in
  intersection_loop (H := Rnum eps) (dbox a) (dbox b) i k (map val lo) (map val hi) = (ok, map val l, map val h).
Proof.
  intros [A1 A2] [B1 B2]. induction k as [|k IH]; intros i lo hi L; cbn [intersection_loop]; [reflexivity|].
  destruct (max_val (at_ (H := B64 m) (low a) i) (at_ (H := B64 m) (low b) i)) as [E1 F1]; try (apply dp; auto; lia).
  destruct (min_val (at_ (H := B64 m) (high a) i) (at_ (H := B64 m) (high b) i)) as [E2 F2]; try (apply dp; auto; lia).
  rewrite !dat in E1, E2. change (low (dbox a)) with (dval (low a)). change (low (dbox b)) with (dval (low b)).
  change (high (dbox a)) with (dval (high a)). change (high (dbox b)) with (dval (high b)).
  rewrite <- E1, <- E2.
  set (l := float_max (H := B64 m) _ _) in *. set (h := float_min (H := B64 m) _ _) in *.
  cbn [nltb B64 Rnum]. rewrite <- !map_upd. rewrite ltb_ok by auto. destruct (Rlt_bool (val h) (val l)); [reflexivity|].
  apply IH. lia.
Qed.
Lemma intersection_double a b out : dboxp a -> dboxp b ->
  let (ok, r) := box_intersection (H := B64 m) n a b out in
  box_intersection (H := Rnum eps) n (dbox a) (dbox b) (dbox out) = (ok, dbox r).
Proof.
  intros A B. unfold box_intersection. pose proof (loop_double a b A B n 0 (el (low out)) (el (high out)) ltac:(lia)) as L.
  cbn [low high dbox dval el valid].
  destruct (intersection_loop (H := B64 m) a b 0 n (el (low out)) (el (high out))) as [[ok l] h]. rewrite L. destruct ok; reflexivity.
Qed.

(** ** The predicates *)
Lemma box_box_double a b : dboxp a -> dboxp b ->
  ((forall i, (i < n)%nat -> co (low (dbox a)) i - co (high (dbox b)) i <= deps /\ co (low (dbox b)) i - co (high (dbox a)) i <= deps) ->
     i_box_box (H := B64 m) n a b false = true) /\
  (i_box_box (H := B64 m) n a b false = true ->
   forall i, (i < n)%nat -> co (low (dbox a)) i - co (high (dbox b)) i <= deps * (1 + bpow Zaux.radix2 (-52)) /\
      co (low (dbox b)) i - co (high (dbox a)) i <= deps * (1 + bpow Zaux.radix2 (-52))) /\
  (i_box_box (H := B64 m) n a b true = true <->
   forall i, (i < n)%nat -> co (low (dbox a)) i < co (high (dbox b)) i /\ co (low (dbox b)) i < co (high (dbox a)) i).
Proof.
  intros [A1 A2] [B1 B2]. unfold i_box_box. rewrite !all_below_iff. unfold dbox, deps. cbn [low high].
  split; [|split; [|split]]; intros E i Hi; specialize (E i Hi); rewrite !(dval_co m) in *;
    destruct (dp _ i A1 Hi), (dp _ i A2 Hi), (dp _ i B1 Hi), (dp _ i B2 Hi).
  - apply neg_or. unfold greater_, less_. cbn [nltb nsub neps B64]. split; apply not_true_is_false; intros F; apply sub_gt_true in F; auto; lra.
  - apply neg_or in E. unfold greater_, less_ in E. cbn [nltb nsub neps B64] in E. destruct E as [E1 E2]. apply sub_gt_false in E1, E2; auto.
  - apply neg_or in E. unfold greater_, less_ in E. cbn [nleb B64] in E. rewrite !SFleb_val, !Rleb_false in E by auto. lra.
  - apply neg_or. unfold greater_, less_. cbn [nleb B64]. rewrite !SFleb_val, !Rleb_false by auto. lra.
Qed.
Lemma contains_box_double a b : dboxp a -> dboxp b ->
  ((forall i, (i < n)%nat -> co (low (dbox a)) i - deps <= co (low (dbox b)) i /\ co (high (dbox b)) i <= co (high (dbox a)) i + deps) ->
     c_box_box (H := B64 m) n a b false = true) /\
  (c_box_box (H := B64 m) n a b false = true ->
   forall i, (i < n)%nat -> co (low (dbox a)) i - deps * (1 + bpow Zaux.radix2 (-52)) <= co (low (dbox b)) i /\
      co (high (dbox b)) i <= co (high (dbox a)) i + deps * (1 + bpow Zaux.radix2 (-52))) /\
  (c_box_box (H := B64 m) n a b true = true <->
   forall i, (i < n)%nat -> co (low (dbox a)) i < co (low (dbox b)) i /\ co (high (dbox b)) i < co (high (dbox a)) i).
Proof.
  intros [A1 A2] [B1 B2]. unfold c_box_box. rewrite !all_below_iff. unfold dbox, deps. cbn [low high].
  split; [|split; [|split]]; intros E i Hi; specialize (E i Hi); rewrite !(dval_co m) in *;
    destruct (dp _ i A1 Hi), (dp _ i A2 Hi), (dp _ i B1 Hi), (dp _ i B2 Hi).
  - apply neg_or. unfold greater_, less_. cbn [nltb nsub neps B64]. split; apply not_true_is_false; intros F; apply sub_gt_true in F; auto; lra.
  - apply neg_or in E. unfold greater_, less_ in E. cbn [nltb nsub neps B64] in E. destruct E as [E1 E2]. apply sub_gt_false in E1, E2; auto. lra.
  - apply neg_or in E. unfold greater_, less_ in E. cbn [nleb B64] in E. rewrite !SFleb_val, !Rleb_false in E by auto. lra.
  - apply neg_or. unfold greater_, less_. cbn [nleb B64]. rewrite !SFleb_val, !Rleb_false by auto. lra.
Qed.
End D.
