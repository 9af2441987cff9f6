(** Segments against boxes, balls and segments: proofs. *)
From Coq Require Import ZArith NArith Reals Bool List Lia Lra Psatz.
From Flocq Require Import Core.Raux.
From Verif Require Import Base Scalar ConstModel VecModel RotModel QuatModel ShapeModel IntersectModel RSpec VecSpec RotSpec ShapeSpec RLib OrdLib ConstProofs VecProofs VecProofs4 ShapeProofs ShapeProofs2 ShapeProofs3 BallProofs SegProofs.
Import ListNotations.
Open Scope R_scope.

(** ** Clipping against a box *)
Section Box.
Context (eps : Epsilon).
Variable n : nat.

Lemma axis_bounds l h e d t : l <= h -> d <> 0 ->
  let lo := (l - e) / d in let hi := (h - e) / d in
  let a := if Rlt_bool hi lo then hi else lo in let b := if Rlt_bool hi lo then lo else hi in
  (a <= t <= b <-> l <= e + t * d <= h) /\ (a < t < b <-> l < e + t * d < h).
Proof.
  intros Hl Hd lo hi a b.
  assert (E1 : lo * d = l - e) by (unfold lo; field; auto). assert (E2 : hi * d = h - e) by (unfold hi; field; auto).
  clearbody lo hi. destruct (Rlt_le_dec 0 d) as [P|P].
  - assert (lo <= hi) by (apply Rmult_le_reg_r with d; lra).
    unfold a, b. rewrite Rlt_bool_false by lra. split; split; intros [X Y]; split.
    + apply Rmult_le_compat_r with (r := d) in X; lra.
    + apply Rmult_le_compat_r with (r := d) in Y; lra.
    + apply Rmult_le_reg_r with d; lra.
    + apply Rmult_le_reg_r with d; lra.
    + apply Rmult_lt_compat_r with (r := d) in X; lra.
    + apply Rmult_lt_compat_r with (r := d) in Y; lra.
    + apply Rmult_lt_reg_r with d; lra.
    + apply Rmult_lt_reg_r with d; lra.
  - assert (Q : 0 < - d) by lra. assert (hi <= lo) by (apply Rmult_le_reg_r with (- d); lra).
    assert (A : a = hi /\ b = lo) by (unfold a, b; destruct (Rlt_bool_spec hi lo); split; lra). destruct A as [-> ->].
    split; split; intros [X Y]; split.
    + apply Rmult_le_compat_r with (r := - d) in Y; lra.
    + apply Rmult_le_compat_r with (r := - d) in X; lra.
    + apply Rmult_le_reg_r with (- d); lra.
    + apply Rmult_le_reg_r with (- d); lra.
    + apply Rmult_lt_compat_r with (r := - d) in Y; lra.
    + apply Rmult_lt_compat_r with (r := - d) in X; lra.
    + apply Rmult_lt_reg_r with (- d); lra.
    + apply Rmult_lt_reg_r with (- d); lra.
Qed.

Variable s : segment R.
Variable b : axisbox R.
Let e i := co (end1 s) i.
Let d i := co (end2 s) i - co (end1 s) i.
Let l i := co (low b) i.
Let h i := co (high b) i.
(** The axis allows the parameter t. *)
Definition okc i t := (d i = 0 -> l i - eps <= e i <= h i + eps) /\ (d i <> 0 -> l i <= e i + t * d i <= h i).
Definition oko i t := (d i = 0 -> l i < e i < h i) /\ (d i <> 0 -> l i < e i + t * d i < h i).

Lemma axis_none proper i : seg_box_axis s b proper None i = None. Proof. reflexivity. Qed.
Lemma fold_none proper L : fold_left (seg_box_axis s b proper) L None = None.
Proof. induction L; auto. Qed.

Lemma axis_closed i mn mx : l i <= h i ->
  match seg_box_axis s b false (Some (mn, mx)) i with
  | None => forall t, ~ okc i t
  | Some (mn', mx') => forall t, mn' <= t <= mx' <-> mn <= t <= mx /\ okc i t
  end.
Proof.
  intros O. unfold seg_box_axis. rewrite !at_co. cbn [nsub neqb ndiv nltb Rnum]. unfold n0. cbn [nofZ Rnum].
  change (co (end2 s) i - co (end1 s) i) with (d i). change (co (end1 s) i) with (e i). change (co (low b) i) with (l i). change (co (high b) i) with (h i).
  destruct (Req_bool_spec (d i) (IZR 0)) as [Z|Z]; change (IZR 0) with 0 in Z.
  - destruct (_ || _) eqn:T.
    + intros t [K _]. specialize (K Z). apply orb_true_iff in T. destruct T as [T|T]; apply Bool.not_false_iff_true in T; apply T;
      [apply less_false|apply greater_false]; lra.
    + apply orb_false_iff in T. destruct T as [T1 T2]. apply less_false in T1. apply greater_false in T2.
      intros t. split; [|tauto]. intros X. split; auto. split; intros; [lra|congruence].
  - pose proof (axis_bounds (l i) (h i) (e i) (d i)) as A.
    destruct (Rlt_bool_spec ((h i - e i) / d i) ((l i - e i) / d i)) as [Sw|Sw].
    + intros t. destruct (A t O Z) as [C _]. cbn zeta in C. rewrite Rlt_bool_true in C by auto.
      split.
      * intros [X Y]. assert (W : (h i - e i) / d i <= t <= (l i - e i) / d i /\ mn <= t <= mx).
        { destruct (Rlt_bool_spec mn ((h i - e i) / d i)), (Rlt_bool_spec ((l i - e i) / d i) mx); lra. }
        split; [tauto|]. split; [intros; congruence|]. intros _. apply C. tauto.
      * intros [X [_ K]]. specialize (K Z). apply C in K.
        destruct (Rlt_bool_spec mn ((h i - e i) / d i)), (Rlt_bool_spec ((l i - e i) / d i) mx); lra.
    + intros t. destruct (A t O Z) as [C _]. cbn zeta in C. rewrite Rlt_bool_false in C by auto.
      split.
      * intros [X Y]. assert (W : (l i - e i) / d i <= t <= (h i - e i) / d i /\ mn <= t <= mx).
        { destruct (Rlt_bool_spec mn ((l i - e i) / d i)), (Rlt_bool_spec ((h i - e i) / d i) mx); lra. }
        split; [tauto|]. split; [intros; congruence|]. intros _. apply C. tauto.
      * intros [X [_ K]]. specialize (K Z). apply C in K.
        destruct (Rlt_bool_spec mn ((l i - e i) / d i)), (Rlt_bool_spec ((h i - e i) / d i) mx); lra.
Qed.
Lemma axis_open i mn mx : l i <= h i ->
  match seg_box_axis s b true (Some (mn, mx)) i with
  | None => forall t, ~ oko i t
  | Some (mn', mx') => forall t, mn' < t < mx' <-> mn < t < mx /\ oko i t
  end.
Proof.
  intros O. unfold seg_box_axis. rewrite !at_co. cbn [nsub neqb ndiv nltb Rnum]. unfold n0. cbn [nofZ Rnum].
  change (co (end2 s) i - co (end1 s) i) with (d i). change (co (end1 s) i) with (e i). change (co (low b) i) with (l i). change (co (high b) i) with (h i).
  destruct (Req_bool_spec (d i) (IZR 0)) as [Z|Z]; change (IZR 0) with 0 in Z.
  - destruct (_ || _) eqn:T.
    + intros t [K _]. specialize (K Z). apply orb_true_iff in T. destruct T as [T|T]; apply Bool.not_false_iff_true in T; apply T;
      [apply less_proper|apply greater_proper]; lra.
    + apply orb_false_iff in T. destruct T as [T1 T2]. apply less_proper in T1. apply greater_proper in T2.
      intros t. split; [|tauto]. intros X. split; auto. split; intros; [lra|congruence].
  - pose proof (axis_bounds (l i) (h i) (e i) (d i)) as A.
    destruct (Rlt_bool_spec ((h i - e i) / d i) ((l i - e i) / d i)) as [Sw|Sw].
    + intros t. destruct (A t O Z) as [_ C]. cbn zeta in C. rewrite Rlt_bool_true in C by auto.
      split.
      * intros [X Y]. assert (W : (h i - e i) / d i < t < (l i - e i) / d i /\ mn < t < mx).
        { destruct (Rlt_bool_spec mn ((h i - e i) / d i)), (Rlt_bool_spec ((l i - e i) / d i) mx); lra. }
        split; [tauto|]. split; [intros; congruence|]. intros _. apply C. tauto.
      * intros [X [_ K]]. specialize (K Z). apply C in K.
        destruct (Rlt_bool_spec mn ((h i - e i) / d i)), (Rlt_bool_spec ((l i - e i) / d i) mx); lra.
    + intros t. destruct (A t O Z) as [_ C]. cbn zeta in C. rewrite Rlt_bool_false in C by auto.
      split.
      * intros [X Y]. assert (W : (l i - e i) / d i < t < (h i - e i) / d i /\ mn < t < mx).
        { destruct (Rlt_bool_spec mn ((l i - e i) / d i)), (Rlt_bool_spec ((h i - e i) / d i) mx); lra. }
        split; [tauto|]. split; [intros; congruence|]. intros _. apply C. tauto.
      * intros [X [_ K]]. specialize (K Z). apply C in K.
        destruct (Rlt_bool_spec mn ((l i - e i) / d i)), (Rlt_bool_spec ((h i - e i) / d i) mx); lra.
Qed.

Lemma clip_closed L : (forall i, In i L -> l i <= h i) -> forall mn mx,
  match fold_left (seg_box_axis s b false) L (Some (mn, mx)) with
  | None => forall t, ~ (forall i, In i L -> okc i t)
  | Some (mn', mx') => forall t, mn' <= t <= mx' <-> mn <= t <= mx /\ (forall i, In i L -> okc i t)
  end.
Proof.
  induction L as [|i L IH]; intros O mn mx; cbn [fold_left].
  - intros t. split; [intros X; split; auto; intros i []|tauto].
  - pose proof (axis_closed i mn mx (O i (or_introl eq_refl))) as A. destruct (seg_box_axis s b false (Some (mn, mx)) i) as [[mn1 mx1]|].
    + specialize (IH (fun j Hj => O j (or_intror Hj)) mn1 mx1). destruct (fold_left _ L _) as [[mn2 mx2]|].
      * intros t. rewrite IH, A. split; [intros [[X Y] Z]; split; auto; intros j [<-|Hj]; auto|].
        intros [X Y]. split; [split; auto; apply Y; now left|]. intros j Hj. apply Y. now right.
      * intros t Y. apply (IH t). intros j Hj. apply Y. now right.
    + rewrite fold_none. intros t Y. apply (A t). apply Y. now left.
Qed.
Lemma clip_open L : (forall i, In i L -> l i <= h i) -> forall mn mx,
  match fold_left (seg_box_axis s b true) L (Some (mn, mx)) with
  | None => forall t, ~ (forall i, In i L -> oko i t)
  | Some (mn', mx') => forall t, mn' < t < mx' <-> mn < t < mx /\ (forall i, In i L -> oko i t)
  end.
Proof.
  induction L as [|i L IH]; intros O mn mx; cbn [fold_left].
  - intros t. split; [intros X; split; auto; intros i []|tauto].
  - pose proof (axis_open i mn mx (O i (or_introl eq_refl))) as A. destruct (seg_box_axis s b true (Some (mn, mx)) i) as [[mn1 mx1]|].
    + specialize (IH (fun j Hj => O j (or_intror Hj)) mn1 mx1). destruct (fold_left _ L _) as [[mn2 mx2]|].
      * intros t. rewrite IH, A. split; [intros [[X Y] Z]; split; auto; intros j [<-|Hj]; auto|].
        intros [X Y]. split; [split; auto; apply Y; now left|]. intros j Hj. apply Y. now right.
      * intros t Y. apply (IH t). intros j Hj. apply Y. now right.
    + rewrite fold_none. intros t Y. apply (A t). apply Y. now left.
Qed.
Lemma seg_at_e t i : seg_at s t i = e i + t * d i. Proof. unfold seg_at, e, d. ring. Qed.
Lemma in_seq0 i : In i (seq 0 n) <-> (i < n)%nat. Proof. rewrite in_seq. lia. Qed.

Lemma seg_box : box_ordered n b ->
  (i_seg_box n s b false = true <-> exists t, 0 <= t <= 1 /\ forall i, (i < n)%nat -> okc i t).
Proof.
  intros O. unfold i_seg_box. pose proof (clip_closed (seq 0 n) (fun i Hi => O i (proj1 (in_seq0 i) Hi)) n0 n1) as C.
  unfold n0, n1 in *. cbn [nofZ Rnum] in *. change (IZR 0) with 0 in *. change (IZR 1) with 1 in *.
  destruct (fold_left _ _ _) as [[mn mx]|].
  - rewrite less_eq_false. split.
    + intros L. exists mn. destruct (proj1 (C mn) ltac:(lra)) as [X Y]. split; auto. intros i Hi. apply Y. now apply in_seq0.
    + intros (t & Ht & K). assert (mn <= t <= mx) by (apply C; split; auto; intros i Hi; apply K; now apply in_seq0). lra.
  - split; [discriminate|]. intros (t & Ht & K). exfalso. apply (C t). intros i Hi. apply K. now apply in_seq0.
Qed.
Lemma seg_box_proper : box_ordered n b ->
  (i_seg_box n s b true = true <-> meet (in_segment_open n s) (in_box_open n b)).
Proof.
  intros O. unfold i_seg_box. pose proof (clip_open (seq 0 n) (fun i Hi => O i (proj1 (in_seq0 i) Hi)) n0 n1) as C.
  unfold n0, n1 in *. cbn [nofZ Rnum] in *. change (IZR 0) with 0 in *. change (IZR 1) with 1 in *.
  assert (K : forall t i, oko i t <-> l i < e i + t * d i < h i).
  { intros t i. unfold oko. destruct (Req_dec (d i) 0) as [Z|Z]; [rewrite Z, Rmult_0_r, Rplus_0_r|]; tauto. }
  destruct (fold_left _ _ _) as [[mn mx]|].
  - rewrite less_eq_proper. split.
    + intros L. destruct (proj1 (C ((mn + mx) / 2)) ltac:(lra)) as [X Y]. exists (seg_at s ((mn + mx) / 2)). split.
      * exists ((mn + mx) / 2). split; auto. intros i Hi. reflexivity.
      * intros i Hi. rewrite seg_at_e. apply (proj1 (K _ i)). apply Y. now apply in_seq0.
    + intros (x & (t & Ht & E) & X). assert (mn < t < mx); [|lra]. apply C. split; auto. intros i Hi. apply in_seq0 in Hi. apply (proj2 (K t i)). rewrite <- seg_at_e, <- E by auto. now apply X.
  - split; [discriminate|]. intros (x & (t & Ht & E) & X). exfalso. apply (C t). intros i Hi. apply in_seq0 in Hi. apply (proj2 (K t i)). rewrite <- seg_at_e, <- E by auto. now apply X.
Qed.
Lemma seg_box_complete : 0 <= (eps : R) -> box_ordered n b -> meet (in_segment n s) (in_box n b) -> i_seg_box n s b false = true.
Proof.
  intros He O (x & (t & Ht & E) & X). apply seg_box; auto. exists t. split; auto. intros i Hi. specialize (X i Hi). rewrite E, seg_at_e in X by auto.
  fold (l i) (h i) in X. split; intros Z; [rewrite Z in X; lra|lra].
Qed.
Lemma seg_box_sound : 0 <= (eps : R) -> box_ordered n b -> i_seg_box n s b false = true -> meet (in_segment n s) (near_box n eps b).
Proof.
  intros He O E. apply seg_box in E; auto. destruct E as (t & Ht & K). exists (seg_at s t). split; [exists t; split; auto; intros i Hi; reflexivity|].
  intros i Hi. rewrite seg_at_e. destruct (K i Hi) as [K1 K2]. fold (l i) (h i). destruct (Req_dec (d i) 0) as [Z|Z]; [rewrite Z; specialize (K1 Z); lra|specialize (K2 Z); lra].
Qed.

(** Box containing a segment. *)
Lemma box_contains_seg : c_box_seg n b s false = true <-> incl (in_segment n s) (near_box n eps b).
Proof.
  unfold c_box_seg. rewrite andb_true_iff, !box_point. split.
  - intros [A B] x (t & Ht & E) i Hi. rewrite E by auto. specialize (A i Hi). specialize (B i Hi). unfold seg_at. split; nra.
  - intros I. split; apply I; apply (on_ends n (co (end1 s)) (co (end2 s))).
Qed.
Lemma box_contains_seg_proper : c_box_seg n b s true = true <-> incl (in_segment n s) (in_box_open n b).
Proof.
  unfold c_box_seg. rewrite andb_true_iff, !box_point_proper. split.
  - intros [A B] x (t & Ht & E) i Hi. rewrite E by auto. specialize (A i Hi). specialize (B i Hi). unfold seg_at.
    pose proof (mix_pos t (co (end1 s) i - co (low b) i) (co (end2 s) i - co (low b) i) Ht ltac:(lra) ltac:(lra)).
    pose proof (mix_pos t (co (high b) i - co (end1 s) i) (co (high b) i - co (end2 s) i) Ht ltac:(lra) ltac:(lra)). split; lra.
  - intros I. split; apply I; apply (on_ends n (co (end1 s)) (co (end2 s))).
Qed.
End Box.

(** ** Exact comparisons *)
Section Z.
Variable n : nat.
Existing Instance Ez.

(** Segment containing a box: at most one axis has extent, and the corners are on it. *)
Definition flat_but (b : axisbox R) (k : nat) : Prop := forall i, (i < n)%nat -> i <> k -> co (low b) i = co (high b) i.
Lemma box_axes (b : axisbox R) :
  match fold_left (fun st i => match st with
                    | None => None
                    | Some got => if (at_ (low b) i =? at_ (high b) i)%num then Some got else if got : bool then None else Some true
                    end) (seq 0 n) (Some false) with
  | None => exists i j, (i < n)%nat /\ (j < n)%nat /\ i <> j /\ co (low b) i <> co (high b) i /\ co (low b) j <> co (high b) j
  | Some got => if got then exists k, (k < n)%nat /\ flat_but b k else flat_but b n
  end.
Proof.
  enough (G : forall m, (m <= n)%nat -> match fold_left (fun st i => match st with
                    | None => None
                    | Some got => if (at_ (low b) i =? at_ (high b) i)%num then Some got else if got : bool then None else Some true
                    end) (seq 0 m) (Some false) with
  | None => exists i j, (i < m)%nat /\ (j < m)%nat /\ i <> j /\ co (low b) i <> co (high b) i /\ co (low b) j <> co (high b) j
  | Some got => if got then exists k, (k < m)%nat /\ co (low b) k <> co (high b) k /\ (forall i, (i < m)%nat -> i <> k -> co (low b) i = co (high b) i) else forall i, (i < m)%nat -> co (low b) i = co (high b) i
  end).
  { specialize (G n (Nat.le_refl n)). destruct (fold_left _ _ _) as [[]|]; auto.
    - destruct G as (k & Hk & _ & F). exists k. split; auto.
    - intros i Hi _. now apply G. }
  induction m as [|m IH]; intros Hm.
  - cbn. intros i Hi. lia.
  - rewrite seq_S, fold_left_app. cbn [fold_left Nat.add]. specialize (IH ltac:(lia)). destruct (fold_left _ (seq 0 m) _) as [[]|].
    + destruct IH as (k & Hk & Nk & F). rewrite !at_co. cbn [neqb Rnum]. destruct (Req_bool_spec (co (low b) m) (co (high b) m)) as [E|E].
      * exists k. split; [lia|]. split; auto. intros i Hi Ni. destruct (Nat.eq_dec i m) as [->|]; auto. apply F; auto. lia.
      * exists k, m. repeat split; auto; lia.
    + rewrite !at_co. cbn [neqb Rnum]. destruct (Req_bool_spec (co (low b) m) (co (high b) m)) as [E|E].
      * intros i Hi. destruct (Nat.eq_dec i m) as [->|]; auto. apply IH. lia.
      * exists m. split; [lia|]. split; auto. intros i Hi Ni. apply IH. lia.
    + destruct IH as (i & j & Hi & Hj & Nij & A & B). exists i, j. repeat split; auto; lia.
Qed.
(** A box with extent along one axis only is the segment between its corners. *)
Lemma thin_box (b : axisbox R) k x : (k < n)%nat -> flat_but b k -> in_box n b x -> on n (co (low b)) (co (high b)) x.
Proof.
  intros Hk F X. pose proof (X k Hk) as Xk. destruct (Req_dec (co (low b) k) (co (high b) k)) as [E|E].
  - exists 0. split; [lra|]. intros i Hi. specialize (X i Hi). unfold lerp. destruct (Nat.eq_dec i k) as [->|Ni]; [lra|]. rewrite <- (F i Hi Ni) in X |- *. lra.
  - exists ((x k - co (low b) k) / (co (high b) k - co (low b) k)). split.
    + split; [apply Rmult_le_pos; [lra|left; apply Rinv_0_lt_compat; lra]|apply div_le_1; lra].
    + intros i Hi. unfold lerp. destruct (Nat.eq_dec i k) as [->|Ni]; [field; lra|]. specialize (X i Hi). rewrite <- (F i Hi Ni) in X |- *. lra.
Qed.
Lemma flat_box (b : axisbox R) x : flat_but b n -> in_box n b x -> pteq n x (co (low b)).
Proof. intros F X i Hi. specialize (X i Hi). rewrite <- (F i Hi) in X by lia. lra. Qed.
Lemma corner_step (b : axisbox R) i : box_ordered n b -> (i < n)%nat -> in_box n b (fun k => co (low b) k + (co (high b) i - co (low b) i) * delta i k).
Proof.
  intros O Hi k Hk. pose proof (O k Hk). destruct (Nat.eq_dec k i) as [->|N]; [rewrite delta_same; lra|rewrite delta_diff by auto; lra].
Qed.
Lemma box_ends' (a : axisbox R) : box_ordered n a -> in_box n a (co (low a)) /\ in_box n a (co (high a)).
Proof. intros O. split; intros i Hi; specialize (O i Hi); lra. Qed.
Lemma on_ext a b x y : pteq n x y -> on n a b x -> on n a b y.
Proof. intros E (t & Ht & X). exists t. split; auto. intros i Hi. rewrite <- E by auto. now apply X. Qed.
Lemma on_open_ext a b x y : pteq n x y -> on_open n a b x -> on_open n a b y.
Proof. intros E (t & Ht & X). exists t. split; auto. intros i Hi. rewrite <- E by auto. now apply X. Qed.

Lemma seg_contains_box s b : box_ordered n b -> (c_seg_box n s b false = true <-> incl (in_box n b) (in_segment n s)).
Proof.
  intros O. unfold c_seg_box. pose proof (box_axes b) as A. destruct (box_ends' b O) as [Lo Hi'].
  destruct (fold_left _ _ _) as [[]|].
  - destruct A as (k & Hk & F). rewrite andb_true_iff, !seg_point. split; [|intros I; split; now apply I].
    intros [L H] x X. apply (on_convex n _ _ _ _ x L H). eapply thin_box; eauto.
  - rewrite andb_true_r, seg_point. split; [|intros I; now apply I]. intros L x X. apply (on_ext _ _ (co (low b))); auto.
    intros i Hi. symmetry. now apply flat_box.
  - split; [discriminate|]. intros I. exfalso. destruct A as (i & j & Hi & Hj & Nij & Di & Dj).
    apply (not_collinear n (co (end1 s)) (co (end2 s)) (co (low b)) i j (co (high b) i - co (low b) i) (co (high b) j - co (low b) j)); auto; try lra;
      apply I; auto; now apply corner_step.
Qed.
End Z.
