(** Axis boxes: Intersection, Union, BoundingBox, moves. *)
From Coq Require Import ZArith NArith Reals Bool List Lia Lra Permutation.
From Flocq Require Import Core.Raux.
From Verif Require Import Base Scalar ConstModel VecModel RotModel QuatModel ShapeModel IntersectModel RSpec VecSpec RotSpec ShapeSpec RLib OrdLib VecProofs VecProofs4 ShapeProofs.
Import ListNotations.
Open Scope R_scope.

Section R.
Context (eps : Epsilon).
Variable n : nat.

Lemma fmax (x y : R) : float_max x y = Rmax x y.
Proof. unfold float_max, Rmax. cbn [nltb nleb Rnum]. match goal with |- context [Rlt_bool ?a ?b] => destruct (Rlt_bool_spec a b) | |- context [Rle_bool ?a ?b] => destruct (Rle_bool_spec a b) end; destruct Rle_dec; lra. Qed.
Lemma fmin (x y : R) : float_min x y = Rmin x y.
Proof. unfold float_min, Rmin. cbn [nltb nleb Rnum]. match goal with |- context [Rlt_bool ?a ?b] => destruct (Rlt_bool_spec a b) | |- context [Rle_bool ?a ?b] => destruct (Rle_bool_spec a b) end; destruct Rle_dec; lra. Qed.

Lemma loop_spec (a1 a2 : axisbox R) k : forall i lo hi ok lo' hi', (i + k = n)%nat -> length lo = n -> length hi = n ->
  intersection_loop a1 a2 i k lo hi = (ok, lo', hi') ->
  length lo' = n /\ length hi' = n /\
  (forall j, (j < i)%nat -> nth j lo' 0 = nth j lo 0 /\ nth j hi' 0 = nth j hi 0) /\
  if ok then forall j, (i <= j < n)%nat -> nth j lo' 0 = Rmax (co (low a1) j) (co (low a2) j) /\ nth j hi' 0 = Rmin (co (high a1) j) (co (high a2) j) /\
       Rmax (co (low a1) j) (co (low a2) j) <= Rmin (co (high a1) j) (co (high a2) j)
  else exists j, (i <= j < n)%nat /\ Rmin (co (high a1) j) (co (high a2) j) < Rmax (co (low a1) j) (co (low a2) j).
Proof.
  induction k as [|k IH]; intros i lo hi ok lo' hi' Hi Hl Hh; cbn [intersection_loop].
  - injection 1 as <- <- <-. repeat split; auto; lia.
  - rewrite !fmax, !fmin, !at_co. cbn [nltb Rnum].
    destruct (Rlt_bool_spec (Rmin (co (high a1) i) (co (high a2) i)) (Rmax (co (low a1) i) (co (low a2) i))) as [L|L].
    + injection 1 as <- <- <-. rewrite !upd_length. split; [auto|split; [auto|split]].
      * intros j Hj. rewrite !nth_upd_other by lia. auto.
      * exists i. split; [lia|auto].
    + intros E. apply IH in E; [|lia|now rewrite upd_length|now rewrite upd_length].
      destruct E as (A & B & C & D). split; [auto|split; [auto|split]].
      * intros j Hj. destruct (C j) as [C1 C2]; [lia|]. rewrite C1, C2, !nth_upd_other by lia. auto.
      * destruct ok.
        -- intros j Hj. destruct (Nat.eq_dec j i) as [->|].
           ++ destruct (C i) as [C1 C2]; [lia|]. rewrite C1, C2, !nth_upd_same by lia. auto.
           ++ apply D; lia.
        -- destruct D as (j & Hj & D). exists j. split; [lia|auto].
Qed.

Lemma intersection_spec (a b out0 : axisbox R) ok out : box_dims n out0 -> box_ordered n a -> box_ordered n b ->
  box_intersection n a b out0 = (ok, out) ->
  box_dims n out /\
  (ok = true <-> meet (in_box n a) (in_box n b)) /\
  (ok = true -> (forall x, in_box n out x <-> in_box n a x /\ in_box n b x) /\ box_ordered n out /\ box_valid out = box_valid a && box_valid b) /\
  (ok = false -> valid (low out) = valid (low out0) /\ valid (high out) = valid (high out0)).
Proof.
  intros [D1 D2] Oa Ob. unfold box_intersection.
  destruct (intersection_loop a b 0 n (el (low out0)) (el (high out0))) as [[ok' lo] hi] eqn:E.
  apply loop_spec in E; auto. destruct E as (A & B & _ & D).
  destruct ok'; injection 1 as <- <-.
  - split; [split; auto|].
    assert (IN : forall x, in_box n (mkB (mkC lo (valid (low a) && valid (low b))) (mkC hi (valid (high a) && valid (high b)))) x <-> in_box n a x /\ in_box n b x).
    { intros x. unfold in_box, co at 1 2. cbn [low high el]. split.
      - intros I. split; intros i Hi; specialize (I i Hi); destruct (D i) as (E1 & E2 & _); try lia; rewrite E1, E2 in I;
          unfold Rmax, Rmin in I; repeat destruct Rle_dec in I; lra.
      - intros [I1 I2] i Hi. specialize (I1 i Hi). specialize (I2 i Hi). destruct (D i) as (-> & -> & _); [lia|].
        split; [apply Rmax_lub|apply Rmin_glb]; lra. }
    split; [|split; [|discriminate]].
    + split; auto. intros _. exists (fun j => nth j lo 0). apply IN.
      intros j Hj. unfold co. cbn [low high el]. destruct (D j) as (-> & -> & ?); [lia|]. lra.
    + intros _. split; [exact IN|split].
      * intros j Hj. unfold co. cbn [low high el]. destruct (D j) as (-> & -> & ?); [lia|]. lra.
      * unfold box_valid. cbn [low high valid]. destruct (valid (low a)), (valid (low b)), (valid (high a)), (valid (high b)); reflexivity.
  - split; [split; auto|]. split; [|split; [discriminate|auto]].
    split; [discriminate|]. intros (x & X & Y). destruct D as (j & Hj & D).
    specialize (X j (proj2 Hj)). specialize (Y j (proj2 Hj)).
    unfold Rmax, Rmin in D; repeat destruct Rle_dec in D; lra.
Qed.

Lemma union_spec (a b : axisbox R) : box_ordered n a -> box_ordered n b ->
  let u := box_union n a b in
  box_dims n u /\ box_ordered n u /\ box_valid u = box_valid a && box_valid b /\
  incl (in_box n a) (in_box n u) /\ incl (in_box n b) (in_box n u) /\
  forall c, incl (in_box n a) (in_box n c) -> incl (in_box n b) (in_box n c) -> incl (in_box n u) (in_box n c).
Proof.
  intros Oa Ob u.
  assert (E : forall i, (i < n)%nat -> co (low u) i = Rmin (co (low a) i) (co (low b) i) /\ co (high u) i = Rmax (co (high a) i) (co (high b) i)).
  { intros i Hi. unfold u, box_union. cbn [low high]. rewrite !co_tab, fmin, fmax, !at_co by auto. auto. }
  split; [split; apply tab_length|]. split; [|split; [|split; [|split]]].
  - intros i Hi. destruct (E i Hi) as [-> ->]. specialize (Oa i Hi).
    pose proof (Rmin_l (co (low a) i) (co (low b) i)). pose proof (Rmax_l (co (high a) i) (co (high b) i)). lra.
  - unfold box_valid, u, box_union. cbn [low high valid]. destruct (valid (low a)), (valid (low b)), (valid (high a)), (valid (high b)); reflexivity.
  - intros x X i Hi. destruct (E i Hi) as [-> ->]. specialize (X i Hi).
    pose proof (Rmin_l (co (low a) i) (co (low b) i)). pose proof (Rmax_l (co (high a) i) (co (high b) i)). lra.
  - intros x X i Hi. destruct (E i Hi) as [-> ->]. specialize (X i Hi).
    pose proof (Rmin_r (co (low a) i) (co (low b) i)). pose proof (Rmax_r (co (high a) i) (co (high b) i)). lra.
  - intros c Ca Cb x X i Hi. specialize (X i Hi). destruct (E i Hi) as [E1 E2]. rewrite E1, E2 in X.
    pose proof (Ca _ (in_box_low n a Oa) i Hi). pose proof (Ca _ (in_box_high n a Oa) i Hi).
    pose proof (Cb _ (in_box_low n b Ob) i Hi). pose proof (Cb _ (in_box_high n b Ob) i Hi).
    unfold Rmax, Rmin in X; repeat destruct Rle_dec in X; lra.
Qed.

(** Smallest and largest i-th coordinate of a non-empty list. *)
Definition list_min {A} (f : A -> R) (x : A) (l : list A) : R := fold_left (fun m y => Rmin m (f y)) l (f x).
Definition list_max {A} (f : A -> R) (x : A) (l : list A) : R := fold_left (fun m y => Rmax m (f y)) l (f x).

Lemma fold_min {A} (f : A -> R) l : forall m, let r := fold_left (fun m y => Rmin m (f y)) l m in
  r <= m /\ (forall y, In y l -> r <= f y) /\ (r = m \/ exists y, In y l /\ r = f y).
Proof.
  induction l as [|a l IH]; intros m; cbn [fold_left].
  - simpl. repeat split; auto; [lra|intros ? []].
  - destruct (IH (Rmin m (f a))) as (I1 & I2 & I3).
    pose proof (Rmin_l m (f a)). pose proof (Rmin_r m (f a)). cbn zeta. split; [lra|split].
    + intros y [<-|Hy]; [lra|auto].
    + destruct I3 as [I3|(y & Hy & I3)].
      * rewrite I3. unfold Rmin. destruct Rle_dec; [left; auto|right; exists a; simpl; auto].
      * right. exists y. simpl. auto.
Qed.
Lemma fold_max {A} (f : A -> R) l : forall m, let r := fold_left (fun m y => Rmax m (f y)) l m in
  m <= r /\ (forall y, In y l -> f y <= r) /\ (r = m \/ exists y, In y l /\ r = f y).
Proof.
  induction l as [|a l IH]; intros m; cbn [fold_left].
  - simpl. repeat split; auto; [lra|intros ? []].
  - destruct (IH (Rmax m (f a))) as (I1 & I2 & I3).
    pose proof (Rmax_l m (f a)). pose proof (Rmax_r m (f a)). cbn zeta. split; [lra|split].
    + intros y [<-|Hy]; [lra|auto].
    + destruct I3 as [I3|(y & Hy & I3)].
      * rewrite I3. unfold Rmax. destruct Rle_dec; [right; exists a; simpl; auto|left; auto].
      * right. exists y. simpl. auto.
Qed.
Lemma list_min_spec {A} (f : A -> R) x l : (forall y, In y (x :: l) -> list_min f x l <= f y) /\ exists y, In y (x :: l) /\ list_min f x l = f y.
Proof.
  destruct (fold_min f l (f x)) as (A1 & A2 & A3). unfold list_min. split.
  - intros y [<-|Hy]; auto.
  - destruct A3 as [->|(y & Hy & E)]; [exists x; simpl; auto|exists y; simpl; auto].
Qed.
Lemma list_max_spec {A} (f : A -> R) x l : (forall y, In y (x :: l) -> f y <= list_max f x l) /\ exists y, In y (x :: l) /\ list_max f x l = f y.
Proof.
  destruct (fold_max f l (f x)) as (A1 & A2 & A3). unfold list_max. split.
  - intros y [<-|Hy]; auto.
  - destruct A3 as [->|(y & Hy & E)]; [exists x; simpl; auto|exists y; simpl; auto].
Qed.

Lemma points_fold rest : forall lo hi lo' hi', dims n lo -> dims n hi ->
  fold_left (fun (st : point R * point R) (x : point R) => let (lo, hi) := st in
     (mkC (tab n (fun j => float_min (at_ lo j) (at_ x j))) (valid lo && valid x),
      mkC (tab n (fun j => float_max (at_ hi j) (at_ x j))) (valid hi && valid x))) rest (lo, hi) = (lo', hi') ->
  dims n lo' /\ dims n hi' /\
  (forall j, (j < n)%nat -> co lo' j = fold_left (fun m y => Rmin m (co y j)) rest (co lo j)
                          /\ co hi' j = fold_left (fun m y => Rmax m (co y j)) rest (co hi j)) /\
  valid lo' = valid lo && forallb valid rest /\ valid hi' = valid hi && forallb valid rest.
Proof.
  induction rest as [|x rest IH]; intros lo hi lo' hi' D1 D2; cbn [fold_left].
  - injection 1 as <- <-. cbn [forallb]. rewrite !andb_true_r. auto.
  - intros E. apply IH in E; try apply tab_length. destruct E as (A & B & C & V1 & V2).
    split; [auto|split; [auto|split; [|split]]].
    + intros j Hj. destruct (C j Hj) as [-> ->]. rewrite !co_tab, fmin, fmax, !at_co by auto. auto.
    + rewrite V1. cbn [valid forallb]. now rewrite andb_assoc.
    + rewrite V2. cbn [valid forallb]. now rewrite andb_assoc.
Qed.

Lemma bounding_points_co p rest : dims n p -> let b := bounding_points n (p :: rest) in
  box_dims n b /\ valid (low b) = forallb valid (p :: rest) /\ valid (high b) = forallb valid (p :: rest) /\
  forall j, (j < n)%nat -> co (low b) j = list_min (fun y => co y j) p rest /\ co (high b) j = list_max (fun y => co y j) p rest.
Proof.
  intros D b. assert (Eb : b = bounding_points n (p :: rest)) by reflexivity. clearbody b. unfold bounding_points in Eb. cbn zeta in Eb.
  match type of Eb with context [fold_left ?f rest ?z] => destruct (fold_left f rest z) as [lo hi] eqn:E end. subst b.
  apply points_fold in E; auto. destruct E as (A & B & C & V1 & V2).
  cbn [box_corners low high]. unfold box_dims. cbn [low high forallb]. exact (conj (conj A B) (conj V1 (conj V2 C))).
Qed.

Lemma bounding_points_spec c : c <> [] -> (forall p, In p c -> dims n p) ->
  let b := bounding_points n c in
  box_dims n b /\ box_ordered n b /\ box_valid b = forallb valid c /\
  (forall p, In p c -> in_box n b (co p)) /\
  forall b', (forall p, In p c -> in_box n b' (co p)) -> incl (in_box n b) (in_box n b').
Proof.
  intros Hc D b. destruct c as [|p rest]; [congruence|].
  destruct (bounding_points_co p rest) as (D1 & V1 & V2 & E); [apply D; simpl; auto|]. fold b in D1, V1, V2, E.
  assert (IN : forall q, In q (p :: rest) -> in_box n b (co q)).
  { intros q Hq i Hi. destruct (E i Hi) as [-> ->].
    split; [apply (proj1 (list_min_spec (fun y => co y i) p rest))|apply (proj1 (list_max_spec (fun y => co y i) p rest))]; auto. }
  split; [auto|split; [|split; [|split; [exact IN|]]]].
  - intros i Hi. specialize (IN p (or_introl eq_refl) i Hi). lra.
  - unfold box_valid. rewrite V1, V2. apply andb_diag.
  - intros b' I x X i Hi. specialize (X i Hi). destruct (E i Hi) as [E1 E2]. rewrite E1, E2 in X.
    destruct (proj2 (list_min_spec (fun y => co y i) p rest)) as (y & Hy & Ey).
    destruct (proj2 (list_max_spec (fun y => co y i) p rest)) as (z & Hz & Ez).
    pose proof (I y Hy i Hi). pose proof (I z Hz i Hi). lra.
Qed.

Lemma box_antisym a b : box_dims n a -> box_dims n b -> box_ordered n a -> box_ordered n b ->
  incl (in_box n a) (in_box n b) -> incl (in_box n b) (in_box n a) ->
  valid (low a) = valid (low b) -> valid (high a) = valid (high b) -> a = b.
Proof.
  intros [A1 A2] [B1 B2] Oa Ob I J V1 V2.
  assert (E : low a = low b /\ high a = high b).
  { split; apply (coords_eq n); auto; intros i Hi.
    - pose proof (I _ (in_box_low n a Oa) i Hi). pose proof (J _ (in_box_low n b Ob) i Hi). lra.
    - pose proof (I _ (in_box_high n a Oa) i Hi). pose proof (J _ (in_box_high n b Ob) i Hi). lra. }
  destruct a as [la ha], b as [lb hb]. cbn [low high] in E. destruct E as [-> ->]. reflexivity.
Qed.

Lemma forallb_perm {A} (f : A -> bool) l l' : Permutation l l' -> forallb f l = forallb f l'.
Proof. induction 1; cbn; congruence || (rewrite ?IHPermutation; auto) || (destruct (f x), (f y); auto). Qed.

Lemma bounding_points_perm c c' : (forall p, In p c -> dims n p) -> Permutation c c' -> bounding_points n c = bounding_points n c'.
Proof.
  intros D P. destruct c as [|p rest].
  { apply Permutation_nil in P. subst. reflexivity. }
  destruct c' as [|p' rest']. { symmetry in P. apply Permutation_nil in P. discriminate. }
  assert (D' : forall q, In q (p' :: rest') -> dims n q) by (intros q Hq; apply D; eapply Permutation_in; [symmetry; eauto|auto]).
  destruct (bounding_points_spec (p :: rest)) as (A1 & A2 & A3 & A4 & A5); [discriminate|auto|].
  destruct (bounding_points_spec (p' :: rest')) as (B1 & B2 & B3 & B4 & B5); [discriminate|auto|].
  destruct (bounding_points_co p rest) as (_ & V1 & V2 & _); [apply D; simpl; auto|].
  destruct (bounding_points_co p' rest') as (_ & W1 & W2 & _); [apply D'; simpl; auto|].
  apply box_antisym; auto.
  - apply A5. intros q Hq. apply B4. eapply Permutation_in; eauto.
  - apply B5. intros q Hq. apply A4. eapply Permutation_in; [symmetry; eauto|auto].
  - rewrite V1, W1. now apply forallb_perm.
  - rewrite V2, W2. now apply forallb_perm.
Qed.

(** ** BoundingBox of boxes *)
Lemma boxes_fold rest : forall lo hi lo' hi', dims n lo -> dims n hi ->
  fold_left (fun (st : point R * point R) (x : axisbox R) => let (lo, hi) := st in
     (mkC (tab n (fun j => float_min (at_ lo j) (at_ (low x) j))) (valid lo && valid (low x)),
      mkC (tab n (fun j => float_max (at_ hi j) (at_ (high x) j))) (valid hi && valid (high x)))) rest (lo, hi) = (lo', hi') ->
  dims n lo' /\ dims n hi' /\
  (forall j, (j < n)%nat -> co lo' j = fold_left (fun m y => Rmin m (co (low y) j)) rest (co lo j)
                          /\ co hi' j = fold_left (fun m y => Rmax m (co (high y) j)) rest (co hi j)) /\
  valid lo' = valid lo && forallb (fun b => valid (low b)) rest /\ valid hi' = valid hi && forallb (fun b => valid (high b)) rest.
Proof.
  induction rest as [|x rest IH]; intros lo hi lo' hi' D1 D2; cbn [fold_left].
  - injection 1 as <- <-. cbn [forallb]. rewrite !andb_true_r. auto.
  - intros E. apply IH in E; try apply tab_length. destruct E as (A & B & C & V1 & V2).
    split; [auto|split; [auto|split; [|split]]].
    + intros j Hj. destruct (C j Hj) as [-> ->]. rewrite !co_tab, fmin, fmax, !at_co by auto. auto.
    + rewrite V1. cbn [valid forallb]. now rewrite andb_assoc.
    + rewrite V2. cbn [valid forallb]. now rewrite andb_assoc.
Qed.

Lemma bounding_boxes_co b0 rest : box_dims n b0 -> let b := bounding_boxes n (b0 :: rest) in
  box_dims n b /\ valid (low b) = forallb (fun b => valid (low b)) (b0 :: rest) /\ valid (high b) = forallb (fun b => valid (high b)) (b0 :: rest) /\
  forall j, (j < n)%nat -> co (low b) j = list_min (fun y => co (low y) j) b0 rest /\ co (high b) j = list_max (fun y => co (high y) j) b0 rest.
Proof.
  intros [D1 D2] b. assert (Eb : b = bounding_boxes n (b0 :: rest)) by reflexivity. clearbody b. unfold bounding_boxes in Eb. cbn zeta in Eb.
  match type of Eb with context [fold_left ?f rest ?z] => destruct (fold_left f rest z) as [lo hi] eqn:E end. subst b.
  apply boxes_fold in E; auto. destruct E as (A & B & C & V1 & V2).
  cbn [box_corners low high]. unfold box_dims. cbn [low high forallb]. exact (conj (conj A B) (conj V1 (conj V2 C))).
Qed.

Lemma forallb_both {A} (f g : A -> bool) l : forallb f l && forallb g l = forallb (fun x => f x && g x) l.
Proof. induction l; cbn; auto. rewrite <- IHl. destruct (f a), (g a), (forallb f l), (forallb g l); reflexivity. Qed.

Lemma bounding_boxes_spec c : c <> [] -> (forall b, In b c -> box_dims n b /\ box_ordered n b) ->
  let b := bounding_boxes n c in
  box_dims n b /\ box_ordered n b /\ box_valid b = forallb box_valid c /\
  (forall a, In a c -> incl (in_box n a) (in_box n b)) /\
  forall b', (forall a, In a c -> incl (in_box n a) (in_box n b')) -> incl (in_box n b) (in_box n b').
Proof.
  intros Hc D b. destruct c as [|b0 rest]; [congruence|].
  destruct (bounding_boxes_co b0 rest) as (D1 & V1 & V2 & E); [apply D; simpl; auto|]. fold b in D1, V1, V2, E.
  assert (IN : forall q, In q (b0 :: rest) -> incl (in_box n q) (in_box n b)).
  { intros q Hq x X i Hi. destruct (E i Hi) as [-> ->]. specialize (X i Hi).
    pose proof (proj1 (list_min_spec (fun y => co (low y) i) b0 rest) q Hq).
    pose proof (proj1 (list_max_spec (fun y => co (high y) i) b0 rest) q Hq). cbn beta in *. lra. }
  split; [auto|split; [|split; [|split; [exact IN|]]]].
  - intros i Hi. pose proof (IN b0 (or_introl eq_refl) _ (in_box_low n b0 (proj2 (D b0 (or_introl eq_refl)))) i Hi). lra.
  - unfold box_valid. rewrite V1, V2. apply forallb_both.
  - intros b' I x X i Hi. specialize (X i Hi). destruct (E i Hi) as [E1 E2]. rewrite E1, E2 in X.
    destruct (proj2 (list_min_spec (fun y => co (low y) i) b0 rest)) as (y & Hy & Ey).
    destruct (proj2 (list_max_spec (fun y => co (high y) i) b0 rest)) as (z & Hz & Ez).
    pose proof (I y Hy _ (in_box_low n y (proj2 (D y Hy))) i Hi). pose proof (I z Hz _ (in_box_high n z (proj2 (D z Hz))) i Hi). lra.
Qed.

Lemma bounding_boxes_perm c c' : (forall b, In b c -> box_dims n b /\ box_ordered n b) -> Permutation c c' -> bounding_boxes n c = bounding_boxes n c'.
Proof.
  intros D P. destruct c as [|p rest].
  { apply Permutation_nil in P. subst. reflexivity. }
  destruct c' as [|p' rest']. { symmetry in P. apply Permutation_nil in P. discriminate. }
  assert (D' : forall q, In q (p' :: rest') -> box_dims n q /\ box_ordered n q) by (intros q Hq; apply D; eapply Permutation_in; [symmetry; eauto|auto]).
  destruct (bounding_boxes_spec (p :: rest)) as (A1 & A2 & A3 & A4 & A5); [discriminate|auto|].
  destruct (bounding_boxes_spec (p' :: rest')) as (B1 & B2 & B3 & B4 & B5); [discriminate|auto|].
  destruct (bounding_boxes_co p rest) as (_ & V1 & V2 & _); [apply D; simpl; auto|].
  destruct (bounding_boxes_co p' rest') as (_ & W1 & W2 & _); [apply D'; simpl; auto|].
  apply box_antisym; auto.
  - apply A5. intros q Hq. apply B4. eapply Permutation_in; eauto.
  - apply B5. intros q Hq. apply A4. eapply Permutation_in; [symmetry; eauto|auto].
  - rewrite V1, W1. now apply forallb_perm.
  - rewrite V2, W2. now apply forallb_perm.
Qed.

(** ** Moves *)
Lemma shift_in_box (b : axisbox R) v x : in_box n (box_shift n b v) (fun i => x i + co v i) <-> in_box n b x.
Proof.
  unfold in_box, box_shift. cbn [low high]. split; intros I i Hi; specialize (I i Hi); unfold vec_add in *;
    rewrite !co_tab in * by auto; cbn [nadd Rnum] in *; rewrite !at_co in *; lra.
Qed.
End R.
