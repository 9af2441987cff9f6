(** Polygons in the plane against points, balls and convex shapes, in exact arithmetic. *)
From Coq Require Import Reals List Bool Lra Lia Psatz Permutation Classical.
From Flocq Require Import Core.Raux.
From Verif Require Import Base Scalar ConstModel VecModel RotModel QuatModel VecSpec RSpec RLib VecProofs VecProofs4 ConstProofs ShapeSpec ShapeModel IntersectModel ShapeProofs ShapeProofs2 ShapeProofs3 BallProofs SegProofs SegProofs2 SegProofs3 SegProofs4 PolyModel PolyIntersectModel EvenOddSpec EvenOddProofs RegionSpec RegionProofs.
Import ListNotations.
Open Scope R_scope.
#[local] Existing Instance Rnum | 0.
#[local] Instance eps0 : Epsilon := 0.

(** * The point test *)
Lemma touches_boundary l (p : coords R) e : In e (sides l) -> touches p e = true -> on_boundary l (co p).
Proof.
  destruct e as [a b]. intros I T. unfold touches in T. apply andb_true_iff in T. destruct T as [S E]. apply equal_R_exact0 in E. change (at_ p 0) with (co p 0) in E.
  exists a, b. split; auto. destruct (cut_on_side eps0 p a b S) as (s & S' & Cu). exists s. split; auto. intros i Hi. rewrite <- (Cu i Hi). destruct i as [|[|i]]; [exact E|auto|lia].
Qed.
Lemma parity_passes l (p : coords R) : par (passes p) (sides l) = parity (co p) right l.
Proof. unfold parity. apply par_ext. intros e _. apply passes_crossed. Qed.
Lemma point_ret l (p : coords R) proper : l <> [] -> exists b, i_pg2_point l p proper = Ret b.
Proof. intros N. rewrite point_sides by auto. eauto. Qed.
Lemma point_interior l (p : coords R) proper : interior l (co p) -> i_pg2_point l p proper = Ret true.
Proof.
  intros I. destruct l as [|c l']; [destruct (region_nil (co p)); now right|]. set (l := c :: l') in *. rewrite point_sides by discriminate. apply interior_parity in I. destruct I as [N P].
  replace (existsb (touches p) (sides l)) with false. { rewrite parity_passes, P. reflexivity. }
  symmetry. apply not_true_is_false. intros X. apply existsb_exists in X. destruct X as (e & Ie & X). apply N. now apply (touches_boundary l p e).
Qed.
Lemma point_outside l (p : coords R) proper : l <> [] -> ~ region l (co p) -> i_pg2_point l p proper = Ret false.
Proof.
  intros Nn R'. rewrite point_sides by auto.
  replace (existsb (touches p) (sides l)) with false.
  - rewrite parity_passes. f_equal. apply not_true_is_false. intros P. apply R'. right. apply interior_parity. split; auto. intros B. apply R'. now left.
  - symmetry. apply not_true_is_false. intros X. apply existsb_exists in X. destruct X as (e & Ie & X). apply R'. left. now apply (touches_boundary l p e).
Qed.
Lemma point_on_side l (p : coords R) a b proper : In (a, b) (sides l) -> on_side (co a) (co b) (co p) ->
  (co a 1%nat <= co p 1%nat < co b 1%nat \/ co b 1%nat <= co p 1%nat < co a 1%nat) -> i_pg2_point l p proper = Ret (negb proper).
Proof.
  intros I S Y. assert (Nn : l <> []) by (intros ->; contradiction). rewrite point_sides by auto.
  replace (existsb (touches p) (sides l)) with true; [reflexivity|]. symmetry. apply existsb_exists. exists (a, b). split; auto.
  unfold touches. destruct S as (s & S & E). pose proof (E 0%nat ltac:(lia)) as E0. pose proof (E 1%nat ltac:(lia)) as E1.
  assert (Sp : spans p (a, b) = true).
  { rewrite spans_R. cbn [fst snd]. destruct Y as [Y|Y].
    - rewrite (Rlt_bool_false (co p 1%nat) (co a 1%nat)), (Rlt_bool_true (co p 1%nat) (co b 1%nat)) by lra. reflexivity.
    - rewrite (Rlt_bool_true (co p 1%nat) (co a 1%nat)), (Rlt_bool_false (co p 1%nat) (co b 1%nat)) by lra. reflexivity. }
  rewrite Sp. cbn [andb]. apply (equal_R_exact0 eps0). change (at_ p 0) with (co p 0%nat). rewrite cut_R. cbn [fst snd].
  apply (Rmult_eq_reg_r (co b 1%nat - co a 1%nat)); [|lra]. rewrite E0. field_simplify; [|lra]. nra.
Qed.
Lemma point_true l (p : coords R) proper : i_pg2_point l p proper = Ret true -> region l (co p).
Proof.
  intros E. apply NNPP. intros N. assert (Nn : l <> []) by (destruct l; [discriminate|easy]). rewrite (point_outside l p proper Nn N) in E. discriminate.
Qed.

(** * Sides as segments *)
Lemma chain_from_sides {T} (l : list (coords T)) : forall (e0 e1 : coords T) (nx : bool),
  Forall2 (fun s e => (end1 s, end2 s) = e \/ (end2 s, end1 s) = e) (chain_from e0 e1 nx l) (edges_from (if nx then e0 else e1) l).
Proof.
  induction l as [|i l IH]; intros e0 e1 nx; cbn [chain_from edges_from]; [constructor|]. destruct nx; constructor; cbn [end1 end2 negb]; auto; [apply (IH e0 i false)|apply (IH i e1 true)].
Qed.
Lemma Forall2_l {A B} (R : A -> B -> Prop) l m x : Forall2 R l m -> In x l -> exists y, In y m /\ R x y.
Proof. induction 1; cbn; [easy|]. intros [<-|I]; [eauto|]. destruct (IHForall2 I) as (z & Z & Q). eauto. Qed.
Lemma Forall2_r {A B} (R : A -> B -> Prop) l m y : Forall2 R l m -> In y m -> exists x, In x l /\ R x y.
Proof. induction 1; cbn; [easy|]. intros [<-|I]; [eauto|]. destruct (IHForall2 I) as (z & Z & Q). eauto. Qed.
Lemma edge_side {T} `{Num T} (l : list (coords T)) e : In e (edges l) <-> In (swap e) (sides l).
Proof.
  split; intros I.
  - apply (Permutation_in e (edges_sides l)) in I. apply in_map_iff in I. destruct I as ((a & b) & <- & I). exact I.
  - apply (Permutation_in e (Permutation_sym (edges_sides l))). apply in_map_iff. exists (swap e). split; auto. now destruct e.
Qed.
Lemma chain_side {T} `{Num T} (l : list (coords T)) s : In s (chain l) -> In (end1 s, end2 s) (sides l) \/ In (end2 s, end1 s) (sides l).
Proof.
  intros I. destruct (Forall2_l _ _ _ _ (chain_from_sides l _ _ true) I) as (e & Ie & Q). cbn iota in Ie. apply edge_side in Ie. destruct Q as [<-|<-]; auto.
Qed.
Lemma side_chain {T} `{Num T} (l : list (coords T)) a b : In (a, b) (sides l) -> exists s, In s (chain l) /\ (s = mkS a b \/ s = mkS b a).
Proof.
  intros I. assert (E : In (b, a) (edges l)) by (apply edge_side; auto). destruct (Forall2_r _ _ _ _ (chain_from_sides l (last l (coords_default 2)) (coords_default 2) true) E) as (s & Is & Q). exists s. split; [exact Is|].
  destruct s as [u v]. cbn in Q. destruct Q as [Q|Q]; injection Q as -> ->; auto.
Qed.
Lemma seg_swap (a b : coords R) x : in_segment 2 (mkS a b) x -> in_segment 2 (mkS b a) x.
Proof. intros (t & T & E). exists (1 - t). split; [lra|]. intros i Hi. rewrite (E i Hi). unfold seg_at. cbn. ring. Qed.
Lemma boundary_chain (l : list (coords R)) x : on_boundary l x <-> exists s, In s (chain l) /\ in_segment 2 s x.
Proof.
  split.
  - intros (a & b & I & t & Q). destruct (side_chain l a b I) as (s & Is & Q2). exists s. split; [exact Is|]. destruct Q2 as [-> | ->]; [now exists t|]. apply seg_swap. now exists t.
  - intros (s & I & Q). destruct s as [a b]. apply chain_side in I. cbn [end1 end2] in I. destruct I as [I|I]; [exists a, b|exists b, a]; (split; [exact I|]); [exact Q|]. apply seg_swap in Q. exact Q.
Qed.

(** * Balls *)
Lemma d2 (x y : pt) : dist2 2 x y = (x 0%nat - y 0%nat) * (x 0%nat - y 0%nat) + (x 1%nat - y 1%nat) * (x 1%nat - y 1%nat).
Proof. unfold dist2, norm2, inner. cbn. ring. Qed.
Lemma two_sq u v : u * u + v * v <= 0 -> u = 0 /\ v = 0.
Proof. intros H. pose proof (Rle_0_sqr u) as A. pose proof (Rle_0_sqr v) as B. unfold Rsqr in *. split; apply Rsqr_0_uniq; unfold Rsqr; lra. Qed.
Lemma d2_along c x t : dist2 2 c (along c x t) = t * t * dist2 2 c x.
Proof. rewrite !d2. unfold along. ring. Qed.
Lemma ball_path (b : ball R) x t : 0 <= radius b -> 0 <= t <= 1 -> in_ball 2 b x -> in_ball 2 b (along (co (center b)) x t).
Proof. intros Hr T I. rewrite (in_ball_sqr 2 b) in * by auto. rewrite d2_along. pose proof (dist2_nonneg 2 (co (center b)) x). assert (t * t <= 1) by nra. nra. Qed.
Lemma ball_path_open (b : ball R) x t : 0 <= radius b -> 0 <= t <= 1 -> in_ball_open 2 b x -> in_ball_open 2 b (along (co (center b)) x t).
Proof. intros Hr T I. rewrite (in_ball_open_sqr 2 b) in * by auto. rewrite d2_along. pose proof (dist2_nonneg 2 (co (center b)) x). assert (t * t <= 1) by nra. nra. Qed.
Lemma ball_path_in (b : ball R) x t : 0 < radius b -> 0 <= t < 1 -> in_ball 2 b x -> in_ball_open 2 b (along (co (center b)) x t).
Proof. intros Hr T I. rewrite (in_ball_open_sqr 2 b) by lra. rewrite (in_ball_sqr 2 b) in I by lra. rewrite d2_along. pose proof (dist2_nonneg 2 (co (center b)) x). assert (t * t < 1) by nra. assert (0 < radius b * radius b) by nra. nra. Qed.
Lemma ball_eq (b : ball R) x y : pteq 2 x y -> in_ball 2 b x -> in_ball 2 b y.
Proof. intros E. unfold in_ball, dist. rewrite !d2, !(E 0%nat), !(E 1%nat) by lia. auto. Qed.
Lemma ball_open_eq (b : ball R) x y : pteq 2 x y -> in_ball_open 2 b x -> in_ball_open 2 b y.
Proof. intros E. unfold in_ball_open, dist. rewrite !d2, !(E 0%nat), !(E 1%nat) by lia. auto. Qed.
Lemma center_in (b : ball R) : 0 <= radius b -> in_ball 2 b (co (center b)).
Proof. intros Hr. rewrite in_ball_sqr by auto. rewrite d2. nra. Qed.
Lemma center_in_open (b : ball R) : 0 < radius b -> in_ball_open 2 b (co (center b)).
Proof. intros Hr. rewrite in_ball_open_sqr by lra. rewrite d2. nra. Qed.
Lemma open_closed (b : ball R) x : in_ball_open 2 b x -> in_ball 2 b x.
Proof. unfold in_ball, in_ball_open. lra. Qed.

(** A segment that meets an open ball does so without its ends. *)
Lemma open_meet s (b : ball R) : 0 <= radius b -> meet (in_segment 2 s) (in_ball_open 2 b) -> meet (in_segment_open 2 s) (in_ball_open 2 b).
Proof.
  intros Hr (x & (t & T & E) & I). destruct (Rlt_dec 0 t) as [T0|T0]; [destruct (Rlt_dec t 1) as [T1|T1]|].
  - exists x. split; auto. exists t. split; auto.
  - assert (t = 1) as -> by lra. apply (ball_open_eq b x _ E) in I. rewrite in_ball_open_sqr in I by auto. rewrite d2 in I. unfold seg_at in I.
    set (A := co (center b) 0) in *. set (B := co (center b) 1) in *. set (u := co (end1 s) 0) in *. set (v := co (end1 s) 1) in *. set (u' := co (end2 s) 0) in *. set (v' := co (end2 s) 1) in *.
    set (g := radius b * radius b - ((A - u') * (A - u') + (B - v') * (B - v'))). assert (G : 0 < g) by (unfold g; lra).
    set (K := 2 * Rabs ((A - u') * (u' - u) + (B - v') * (v' - v)) + ((u' - u) * (u' - u) + (v' - v) * (v' - v)) + g). assert (Sq : 0 <= (u' - u) * (u' - u) + (v' - v) * (v' - v)) by (pose proof (Rle_0_sqr (u' - u)) as S1; pose proof (Rle_0_sqr (v' - v)) as S2; unfold Rsqr in S1, S2; lra). pose proof (Rabs_pos ((A - u') * (u' - u) + (B - v') * (v' - v))) as Ap. assert (Kp : 0 < K) by (unfold K; lra).
    exists (seg_at s (1 - g / (2 * K))). set (h := g / (2 * K)).
    assert (H0 : 0 < h) by (apply Rdiv_lt_0_compat; lra). assert (Hk : h * (2 * K) = g) by (unfold h; field; lra).
    assert (H1 : h <= 1 / 2). { assert (g <= K) by (unfold K; lra). clear - Kp H Hk. nra. }
    split; [exists (1 - h); split; [lra|intros i Hi; reflexivity]|]. rewrite in_ball_open_sqr by auto. rewrite d2. unfold seg_at. fold u v u' v' A B.
    replace (A - ((1 - (1 - h)) * u + (1 - h) * u')) with ((A - u') + h * (u' - u)) by ring. replace (B - ((1 - (1 - h)) * v + (1 - h) * v')) with ((B - v') + h * (v' - v)) by ring.
    replace ((A - u' + h * (u' - u)) * (A - u' + h * (u' - u)) + (B - v' + h * (v' - v)) * (B - v' + h * (v' - v))) with
      (radius b * radius b - g + h * (2 * ((A - u') * (u' - u) + (B - v') * (v' - v)) + h * ((u' - u) * (u' - u) + (v' - v) * (v' - v)))) by (unfold g; ring).
    assert (2 * ((A - u') * (u' - u) + (B - v') * (v' - v)) + h * ((u' - u) * (u' - u) + (v' - v) * (v' - v)) <= K). { unfold K. pose proof (Rle_abs ((A - u') * (u' - u) + (B - v') * (v' - v))). assert (h * ((u' - u) * (u' - u) + (v' - v) * (v' - v)) <= 1 * ((u' - u) * (u' - u) + (v' - v) * (v' - v))) by (apply Rmult_le_compat_r; lra). lra. }
    assert (h * (2 * ((A - u') * (u' - u) + (B - v') * (v' - v)) + h * ((u' - u) * (u' - u) + (v' - v) * (v' - v))) <= h * K) by (apply Rmult_le_compat_l; lra). lra.
  - assert (t = 0) as -> by lra. apply (ball_open_eq b x _ E) in I. rewrite in_ball_open_sqr in I by auto. rewrite d2 in I. unfold seg_at in I.
    set (A := co (center b) 0) in *. set (B := co (center b) 1) in *. set (u' := co (end1 s) 0) in *. set (v' := co (end1 s) 1) in *. set (u := co (end2 s) 0) in *. set (v := co (end2 s) 1) in *.
    set (g := radius b * radius b - ((A - u') * (A - u') + (B - v') * (B - v'))). assert (G : 0 < g) by (unfold g; lra).
    set (K := 2 * Rabs ((A - u') * (u' - u) + (B - v') * (v' - v)) + ((u' - u) * (u' - u) + (v' - v) * (v' - v)) + g). assert (Sq : 0 <= (u' - u) * (u' - u) + (v' - v) * (v' - v)) by (pose proof (Rle_0_sqr (u' - u)) as S1; pose proof (Rle_0_sqr (v' - v)) as S2; unfold Rsqr in S1, S2; lra). pose proof (Rabs_pos ((A - u') * (u' - u) + (B - v') * (v' - v))) as Ap. assert (Kp : 0 < K) by (unfold K; lra).
    exists (seg_at s (g / (2 * K))). set (h := g / (2 * K)).
    assert (H0 : 0 < h) by (apply Rdiv_lt_0_compat; lra). assert (Hk : h * (2 * K) = g) by (unfold h; field; lra).
    assert (H1 : h <= 1 / 2). { assert (g <= K) by (unfold K; lra). clear - Kp H Hk. nra. }
    split; [exists h; split; [lra|intros i Hi; reflexivity]|]. rewrite in_ball_open_sqr by auto. rewrite d2. unfold seg_at. fold u v u' v' A B.
    replace (A - ((1 - h) * u' + h * u)) with ((A - u') + h * (u' - u)) by ring. replace (B - ((1 - h) * v' + h * v)) with ((B - v') + h * (v' - v)) by ring.
    replace ((A - u' + h * (u' - u)) * (A - u' + h * (u' - u)) + (B - v' + h * (v' - v)) * (B - v' + h * (v' - v))) with
      (radius b * radius b - g + h * (2 * ((A - u') * (u' - u) + (B - v') * (v' - v)) + h * ((u' - u) * (u' - u) + (v' - v) * (v' - v)))) by (unfold g; ring).
    assert (2 * ((A - u') * (u' - u) + (B - v') * (v' - v)) + h * ((u' - u) * (u' - u) + (v' - v) * (v' - v)) <= K). { unfold K. pose proof (Rle_abs ((A - u') * (u' - u) + (B - v') * (v' - v))). assert (h * ((u' - u) * (u' - u) + (v' - v) * (v' - v)) <= 1 * ((u' - u) * (u' - u) + (v' - v) * (v' - v))) by (apply Rmult_le_compat_r; lra). lra. }
    assert (h * (2 * ((A - u') * (u' - u) + (B - v') * (v' - v)) + h * ((u' - u) * (u' - u) + (v' - v) * (v' - v))) <= h * K) by (apply Rmult_le_compat_l; lra). lra.
Qed.
Lemma chain_ball l (b : ball R) : 0 <= radius b -> (existsb (fun s => i_seg_ball 2 s b false) (chain l) = true <-> meet (on_boundary l) (in_ball 2 b)).
Proof.
  intros Hr. rewrite existsb_exists. split.
  - intros (s & I & Q). apply (seg_ball 2 s b Hr) in Q. destruct Q as (x & S & B). exists x. split; auto. apply boundary_chain. eauto.
  - intros (x & Bd & B). apply boundary_chain in Bd. destruct Bd as (s & I & S). exists s. split; auto. apply (seg_ball 2 s b Hr). exists x. auto.
Qed.
Lemma chain_ball_open l (b : ball R) : 0 <= radius b -> (existsb (fun s => i_seg_ball 2 s b true) (chain l) = true <-> meet (on_boundary l) (in_ball_open 2 b)).
Proof.
  intros Hr. rewrite existsb_exists. split.
  - intros (s & I & Q). apply (seg_ball_proper 2 s b Hr) in Q. destruct Q as (x & (t & T & E) & B). exists x. split; auto. apply boundary_chain. exists s. split; auto. exists t. split; auto. lra.
  - intros (x & Bd & B). apply boundary_chain in Bd. destruct Bd as (s & I & S). exists s. split; auto. apply (seg_ball_proper 2 s b Hr). apply open_meet; auto. exists x. auto.
Qed.

Lemma pg2_ball l (b : ball R) : l <> [] -> 0 <= radius b -> exists r, i_pg2_ball l b false = Ret r /\ (r = true <-> meet (region l) (in_ball 2 b)).
Proof.
  intros Nn Hr. unfold i_pg2_ball. destruct (point_ret l (center b) false Nn) as (c & E). unfold point in *. rewrite E. cbn [obind]. eexists. split; [reflexivity|].
  rewrite orb_true_iff, (chain_ball l b Hr). split.
  - intros [->|(x & X & B)]; [|exists x; split; auto; now left]. exists (co (center b)). split; [now apply (point_true l (center b) false)|now apply center_in].
  - intros (x & X & B). destruct (classic (interior l (co (center b)))) as [I|I].
    { left. rewrite (point_interior l (center b) false I) in E. congruence. }
    right. destruct (classic (on_boundary l (co (center b)))) as [Bd|Bd]; [exists (co (center b)); split; auto; now apply center_in|].
    destruct (path_boundary l x (co (center b)) X) as (t & T & Q); [intros [?|?]; auto|]. exists (along x (co (center b)) t). split; auto.
    apply (ball_eq b (along (co (center b)) x (1 - t))); [intros i Hi; unfold along; ring|]. apply ball_path; auto. lra.
Qed.
Lemma pg2_ball_proper l (b : ball R) : l <> [] -> 0 < radius b -> exists r, i_pg2_ball l b true = Ret r /\ (r = true <-> meet (region l) (in_ball_open 2 b)).
Proof.
  intros Nn Hr. assert (Hr' : 0 <= radius b) by lra. unfold i_pg2_ball. destruct (point_ret l (center b) true Nn) as (c & E). unfold point in *. rewrite E. cbn [obind]. eexists. split; [reflexivity|].
  rewrite orb_true_iff, (chain_ball_open l b Hr'). split.
  - intros [->|(x & X & B)]; [|exists x; split; auto; now left]. exists (co (center b)). split; [now apply (point_true l (center b) true)|now apply center_in_open].
  - intros (x & X & B). destruct (classic (interior l (co (center b)))) as [I|I].
    { left. rewrite (point_interior l (center b) true I) in E. congruence. }
    right. destruct (classic (on_boundary l (co (center b)))) as [Bd|Bd]; [exists (co (center b)); split; auto; now apply center_in_open|].
    destruct (path_boundary l x (co (center b)) X) as (t & T & Q); [intros [?|?]; auto|]. exists (along x (co (center b)) t). split; auto.
    apply (ball_open_eq b (along (co (center b)) x (1 - t))); [intros i Hi; unfold along; ring|]. apply ball_path_open; auto. lra.
Qed.
Lemma along_flip (x y : pt) t : pteq 2 (along x y t) (along y x (1 - t)).
Proof. intros i Hi. unfold along. ring. Qed.
Lemma pg2_has_ball l (b : ball R) : l <> [] -> 0 <= radius b -> exists r, c_pg2_ball l b false = Ret r /\
  (r = true -> incl (in_ball 2 b) (region l)) /\ (incl (in_ball 2 b) (interior l) -> r = true).
Proof.
  intros Nn Hr. unfold c_pg2_ball. destruct (point_ret l (center b) false Nn) as (c & E). unfold point in *. rewrite E. cbn [obind negb]. eexists. split; [reflexivity|].
  rewrite andb_true_iff, negb_true_iff, <- not_true_iff_false, (chain_ball_open l b Hr). split.
  - intros [-> N] x X. apply point_true in E. destruct (Req_dec (radius b) 0) as [Z|Z].
    + apply (region_eq l (co (center b))); auto. rewrite in_ball_sqr, Z in X by lra. rewrite d2, Rmult_0_l in X. destruct (two_sq _ _ X). intros i Hi. destruct i as [|[|i]]; [lra|lra|lia].
    + apply NNPP. intros Nx. destruct (path_boundary l (co (center b)) x E Nx) as (t & T & Q). destruct (Req_dec t 1) as [->|T1].
      * apply Nx. left. revert Q. apply boundary_eq. intros i Hi. unfold along. ring.
      * apply N. exists (along (co (center b)) x t). split; auto. apply ball_path_in; auto; lra.
  - intros I. pose proof (I _ (center_in b Hr)) as Ic. rewrite (point_interior l (center b) false Ic) in E. split; [congruence|]. intros (x & X & B). apply (I x (open_closed b x B)). auto.
Qed.
Lemma pg2_has_ball_proper l (b : ball R) : l <> [] -> 0 <= radius b -> exists r, c_pg2_ball l b true = Ret r /\ (r = true <-> incl (in_ball 2 b) (interior l)).
Proof.
  intros Nn Hr. unfold c_pg2_ball. destruct (point_ret l (center b) true Nn) as (c & E). unfold point in *. rewrite E. cbn [obind negb]. eexists. split; [reflexivity|].
  rewrite andb_true_iff, negb_true_iff, <- not_true_iff_false, (chain_ball l b Hr). split.
  - intros [-> N] x X. apply point_true in E. assert (Ic : interior l (co (center b))). { destruct E as [E|E]; auto. destruct N. exists (co (center b)). split; auto. now apply center_in. }
    apply (path_interior l (co (center b)) x Ic). intros t T B. apply N. exists (along (co (center b)) x t). split; auto. now apply ball_path.
  - intros I. pose proof (I _ (center_in b Hr)) as Ic. rewrite (point_interior l (center b) true Ic) in E. split; [congruence|]. intros (x & X & B). apply (I x B). auto.
Qed.
Lemma cs2 u v s t n r : 0 <= n -> 0 <= r -> n * n = u * u + v * v -> s * s + t * t <= r * r -> u * s + v * t <= n * r.
Proof.
  intros Hn Hr N S. apply Rnot_lt_le. intros Z. assert (P : 0 <= n * r) by nra. assert (L : (n * r) * (n * r) < (u * s + v * t) * (u * s + v * t)) by nra.
  assert (Q : (u * s + v * t) * (u * s + v * t) + (u * t - v * s) * (u * t - v * s) = (n * n) * (s * s + t * t)) by (rewrite N; ring).
  pose proof (Rle_0_sqr (u * t - v * s)) as W. unfold Rsqr in W. assert ((n * n) * (s * s + t * t) <= (n * n) * (r * r)) by (apply Rmult_le_compat_l; nra). nra.
Qed.
Lemma cs2_lt u v s t n r : 0 < n -> 0 < r -> n * n = u * u + v * v -> s * s + t * t < r * r -> u * s + v * t < n * r.
Proof.
  intros Hn Hr N S. apply Rnot_le_lt. intros Z. assert (P : 0 < n * r) by nra. assert (L : (n * r) * (n * r) <= (u * s + v * t) * (u * s + v * t)) by nra.
  assert (Q : (u * s + v * t) * (u * s + v * t) + (u * t - v * s) * (u * t - v * s) = (n * n) * (s * s + t * t)) by (rewrite N; ring).
  pose proof (Rle_0_sqr (u * t - v * s)) as W. unfold Rsqr in W. assert ((n * n) * (s * s + t * t) < (n * n) * (r * r)) by (apply Rmult_lt_compat_l; nra). nra.
Qed.
Lemma ball_has_pg2 l (b : ball R) : 0 <= radius b -> (c_ball_pg2 b l false = true <-> incl (region l) (in_ball 2 b)) /\ (c_ball_pg2 b l true = true <-> incl (region l) (in_ball_open 2 b)).
Proof.
  intros Hr. unfold c_ball_pg2. rewrite !forallb_forall.
  assert (P : forall q, negb (greater_ (squared_distance 2 (center b) q) (radius b * radius b)%num false) = true <-> in_ball 2 b (co q)).
  { intros q. rewrite negb_true_iff, (greater_false 0), (sqd0 2), in_ball_sqr by auto. cbn [nmul Rnum]. split; lra. }
  assert (P' : forall q, negb (greater_ (squared_distance 2 (center b) q) (radius b * radius b)%num true) = true <-> in_ball_open 2 b (co q)).
  { intros q. rewrite negb_true_iff, (greater_proper 0), (sqd0 2), in_ball_open_sqr by auto. cbn [nmul Rnum]. split; lra. }
  assert (D : forall x y : pt, dist2 2 x y = (y 0%nat - x 0%nat) * (y 0%nat - x 0%nat) + (y 1%nat - x 1%nat) * (y 1%nat - x 1%nat)) by (intros; rewrite d2; ring).
  set (A := co (center b) 0). set (B := co (center b) 1).
  split; split.
  - intros C x X. rewrite in_ball_sqr by auto. rewrite D. fold A B. set (u := x 0%nat - A). set (v := x 1%nat - B). pose proof (Rle_0_sqr u) as U. pose proof (Rle_0_sqr v) as W. unfold Rsqr in U, W.
    set (n := sqrt (u * u + v * v)). assert (N2 : n * n = u * u + v * v) by (apply sqrt_sqrt; lra). assert (Np : 0 <= n) by apply sqrt_pos.
    assert (Q : ldot (u, v) x <= u * A + v * B + n * radius b).
    { apply (region_half l); auto. intros c I. specialize (C c I). apply P in C. rewrite in_ball_sqr in C by auto. rewrite D in C. fold A B in C. unfold ldot. cbn [fst snd].
      pose proof (cs2 u v (co c 0 - A) (co c 1 - B) n (radius b) Np Hr N2 C). lra. }
    unfold ldot in Q. cbn [fst snd] in Q. replace (u * x 0%nat + v * x 1%nat) with (u * A + v * B + n * n) in Q by (rewrite N2; unfold u, v; ring). clearbody n. clear - Q N2 Np Hr. rewrite <- N2. nra.
  - intros I c Ic. apply P. apply I. left. now apply corner_region.
  - intros C x X. rewrite in_ball_open_sqr by auto. rewrite D. fold A B. set (u := x 0%nat - A). set (v := x 1%nat - B). pose proof (Rle_0_sqr u) as U. pose proof (Rle_0_sqr v) as W. unfold Rsqr in U, W.
    set (n := sqrt (u * u + v * v)). assert (N2 : n * n = u * u + v * v) by (apply sqrt_sqrt; lra). assert (Np : 0 <= n) by apply sqrt_pos.
    assert (Rp : 0 < radius b). { destruct (Req_dec (radius b) 0) as [Z|Z]; [|lra]. destruct l as [|c l']; [now destruct (region_nil x)|]. specialize (C c (or_introl eq_refl)). apply P' in C. rewrite in_ball_open_sqr, Z in C by lra. pose proof (dist2_nonneg 2 (co (center b)) (co c)). lra. }
    destruct (Req_dec n 0) as [Z|Z]. { rewrite <- N2, Z, Rmult_0_l. nra. }
    assert (Q : ldot (u, v) x < u * A + v * B + n * radius b).
    { apply (interior_half l); auto. intros c I. specialize (C c I). apply P' in C. rewrite in_ball_open_sqr in C by auto. rewrite D in C. fold A B in C. unfold ldot. cbn [fst snd].
      pose proof (cs2_lt u v (co c 0 - A) (co c 1 - B) n (radius b) ltac:(lra) Rp N2 C). lra. }
    unfold ldot in Q. cbn [fst snd] in Q. replace (u * x 0%nat + v * x 1%nat) with (u * A + v * B + n * n) in Q by (rewrite N2; unfold u, v; ring). clearbody n. clear - Q N2 Np Hr. rewrite <- N2. nra.
  - intros I c Ic. apply P'. apply I. left. now apply corner_region.
Qed.
