(** The 3D test is the fifteen-axis test. *)
From Coq Require Import ZArith NArith Reals Bool List Lia Lra Psatz Arith.
From Flocq Require Import Core.Raux.
From Verif Require Import Base Scalar ConstModel VecModel RotModel QuatModel ShapeModel IntersectModel RSpec VecSpec RotSpec ShapeSpec RLib MatLib OrdLib VecProofs VecProofs2 VecProofs3 VecProofs4 RotProofs2 RotProofs3 ShapeProofs ShapeProofs2 ShapeProofs3 BallProofs SphereProofs RbProofs RbProofs2 SatProofs SatProofs2 HellyProofs SatProofs3.
Import ListNotations.
Open Scope R_scope.

Section Edges.
Context (eps : Epsilon).
Variable r : rotbox R.
Variable b : axisbox R.
Notation c := (co (corner0 r)).
Notation M := (ent (orient r)).
Notation L := (fun k => Rmin 0 (co (rsize r) k)).
Notation U := (fun k => Rmax 0 (co (rsize r) k)).
Notation l := (fun i => co (low b) i - c i).
Notation h := (fun i => co (high b) i - c i).
Notation W := (wax M).
Notation PR i j := (fun k => Rsum 3 (fun q => M k q * W i j q)).

(** The inner products of the test are computed exactly. *)
Definition sat_exact : Prop := forall i j, (i < 3)%nat -> (j < 3)%nat ->
  exact_dot eps 3 (vec_sub 3 (low b) (corner0 r)) (sat_axis (orient r) i j) /\
  forall k, (k < 3)%nat -> exact_dot eps 3 (rot_row 3 (orient r) k) (sat_axis (orient r) i j).
Hypothesis Ob : box_ordered 3 b.

Lemma axis_co i j q : (j < 3)%nat -> (q < 3)%nat -> co (sat_axis (orient r) i j) q = W i j q.
Proof. intros Hj Hq. destruct j as [|[|[|j]]]; [| | |lia]; destruct q as [|[|[|q]]]; try lia; reflexivity. Qed.
Lemma range_min v1 v2 : sat_range v1 v2 = (Rmin 0 v1 + Rmin 0 v2, Rmax 0 v1 + Rmax 0 v2).
Proof.
  unfold sat_range. cbn [nltb Rnum]. unfold n0. cbn [nofZ Rnum nadd].
  destruct (Rlt_bool (IZR 0) v1) eqn:E1; destruct (Rlt_bool (IZR 0) v2) eqn:E2;
  repeat match goal with Q : Rlt_bool _ _ = true |- _ => apply Rltb_iff in Q | Q : Rlt_bool _ _ = false |- _ => apply Rltb_false in Q end;
  change (IZR 0) with 0 in *; unfold Rmin, Rmax; destruct (Rle_dec 0 v1), (Rle_dec 0 v2); f_equal; lra.
Qed.
(** The four ends of the two projections. *)
Definition rlo i j : R := Rsum 3 (fun k => lo (PR i j k) (L k) (U k)).
Definition rhi i j : R := Rsum 3 (fun k => hi (PR i j k) (L k) (U k)).
Definition blo i j : R := Rsum 3 (fun q => lo (W i j q) (l q) (h q)).
Definition bhi i j : R := Rsum 3 (fun q => hi (W i j q) (l q) (h q)).
Lemma sat_edge_form proper i j : sat_exact -> (i < 3)%nat -> (j < 3)%nat ->
  exists d rl rh bl bh, rl = rlo i j /\ rh = rhi i j /\ bl + d = blo i j /\ bh + d = bhi i j /\
  sat_edge r b proper i j = if Rlt_bool (norm2 3 (W i j)) (eps * eps) then Some true else if greater_ (rl - d) bh proper || less_ (rh - d) bl proper then None else Some false.
Proof.
  intros Ex Hi Hj. destruct (Ex i j Hi Hj) as [Es Er]. unfold exact_dot in Es, Er. pose proof (Er (next3 i) (next_lt _)) as E1. pose proof (Er (next3 (next3 i)) (next_lt _)) as E2.
  assert (Q : forall k, (k < 3)%nat -> inner 3 (co (rot_row 3 (orient r) k)) (co (sat_axis (orient r) i j)) = PR i j k).
  { intros k Hk. unfold inner. apply Rsum_ext. intros q Hq. rewrite axis_co by auto. f_equal. unfold rot_row. now rewrite co_tab. }
  rewrite Q in E1, E2 by apply next_lt.
  assert (Sd : inner 3 (co (vec_sub 3 (low b) (corner0 r))) (co (sat_axis (orient r) i j)) = Rsum 3 (fun q => l q * W i j q)).
  { unfold inner. apply Rsum_ext. intros q Hq. rewrite axis_co, sub_co by auto. reflexivity. }
  rewrite Sd in Es.
  assert (Ax : forall q, (q < 3)%nat -> at_ (sat_axis (orient r) i j) q = W i j q) by (intros; rewrite at_co; now apply axis_co).
  assert (Bs : forall q, (q < 3)%nat -> at_ (vec_sub 3 (high b) (low b)) q = h q - l q) by (intros; rewrite at_co, sub_co by auto; ring).
  unfold sat_edge. rewrite Es, E1, E2. rewrite sqr_mag_norm2. replace (norm2 3 (co (sat_axis (orient r) i j))) with (norm2 3 (W i j)) by (unfold norm2; apply inner_ext; intros; symmetry; now apply axis_co).
  cbn [nltb nmul neps Rnum nsub]. rewrite !range_min.
  rewrite !Ax, !Bs by apply next_lt. rewrite !at_co.
  eexists _, _, _, _, _. split; [|split; [|split; [|split; [|reflexivity]]]].
  - unfold rlo. rewrite (sum_cyc (fun k => lo (PR i j k) (L k) (U k)) i Hi). cbn beta. rewrite (wax_self M i j Hj), lo_0, !lo_min. rewrite (Rmult_comm (co (rsize r) (next3 i))), (Rmult_comm (co (rsize r) (next3 (next3 i)))). ring.
  - unfold rhi. rewrite (sum_cyc (fun k => hi (PR i j k) (L k) (U k)) i Hi). cbn beta. rewrite (wax_self M i j Hj), hi_0, !hi_max. rewrite (Rmult_comm (co (rsize r) (next3 i))), (Rmult_comm (co (rsize r) (next3 (next3 i)))). ring.
  - unfold blo. rewrite !(sum_cyc _ j Hj). rewrite (wax_0 M i j Hj), lo_0.
    pose proof (Ob _ (next_lt j)). pose proof (Ob _ (next_lt (next3 j))). rewrite <- !lo_shift by lra.
    rewrite (Rmult_comm (W i j (next3 j)) (h (next3 j) - l (next3 j))), (Rmult_comm (W i j (next3 (next3 j))) (h (next3 (next3 j)) - l (next3 (next3 j)))). ring.
  - unfold bhi. rewrite !(sum_cyc _ j Hj). rewrite (wax_0 M i j Hj), hi_0.
    pose proof (Ob _ (next_lt j)). pose proof (Ob _ (next_lt (next3 j))). rewrite <- !hi_shift by lra.
    rewrite (Rmult_comm (W i j (next3 j)) (h (next3 j) - l (next3 j))), (Rmult_comm (W i j (next3 (next3 j))) (h (next3 (next3 j)) - l (next3 (next3 j)))). ring.
Qed.
Lemma edge_none_proper i j : sat_exact -> (i < 3)%nat -> (j < 3)%nat -> (sat_edge r b true i j <> None <-> norm2 3 (W i j) < eps * eps \/ axis_ok true M l h L U i j).
Proof.
  intros Ex Hi Hj. destruct (sat_edge_form true i j Ex Hi Hj) as (d & rl & rh & bl & bh & -> & -> & E1 & E2 & ->).
  unfold axis_ok. cbn [cmp]. fold (rlo i j) (rhi i j) (blo i j) (bhi i j). destruct (Rlt_bool (norm2 3 (W i j)) (eps * eps)) eqn:N.
  - apply Rltb_iff in N. split; [now left|discriminate].
  - apply Rltb_false in N. destruct (greater_ (rlo i j - d) bh true || less_ (rhi i j - d) bl true) eqn:G.
    + split; [congruence|]. intros [K|[K1 K2]]; [lra|]. assert (G' : greater_ (rlo i j - d) bh true || less_ (rhi i j - d) bl true = false); [|congruence].
      apply orb_false_iff. rewrite greater_proper, less_proper. lra.
    + split; [|discriminate]. intros _. right. apply orb_false_iff in G. rewrite greater_proper, less_proper in G. lra.
Qed.
Lemma edge_none_false i j : sat_exact -> (i < 3)%nat -> (j < 3)%nat -> (sat_edge r b false i j <> None <-> norm2 3 (W i j) < eps * eps \/ rlo i j <= bhi i j + eps /\ blo i j - eps <= rhi i j).
Proof.
  intros Ex Hi Hj. destruct (sat_edge_form false i j Ex Hi Hj) as (d & rl & rh & bl & bh & -> & -> & E1 & E2 & ->).
  destruct (Rlt_bool (norm2 3 (W i j)) (eps * eps)) eqn:N.
  - apply Rltb_iff in N. split; [now left|discriminate].
  - apply Rltb_false in N. destruct (greater_ (rlo i j - d) bh false || less_ (rhi i j - d) bl false) eqn:G.
    + split; [congruence|]. intros [K|[K1 K2]]; [lra|]. assert (G' : greater_ (rlo i j - d) bh false || less_ (rhi i j - d) bl false = false); [|congruence].
      apply orb_false_iff. rewrite greater_false, less_false. lra.
    + split; [|discriminate]. intros _. right. apply orb_false_iff in G. rewrite greater_false, less_false in G. lra.
Qed.
Lemma edge_early proper i j : sat_exact -> (i < 3)%nat -> (j < 3)%nat -> sat_edge r b proper i j = Some true -> norm2 3 (W i j) < eps * eps.
Proof.
  intros Ex Hi Hj E. destruct (sat_edge_form proper i j Ex Hi Hj) as (d & rl & rh & bl & bh & _ & _ & _ & _ & F). rewrite F in E.
  destruct (Rlt_bool (norm2 3 (W i j)) (eps * eps)) eqn:N; [now apply Rltb_iff in N|]. destruct (_ || _); discriminate.
Qed.
Lemma edges_sound proper ps : (forall i j, In (i, j) ps -> sat_edge r b proper i j <> None) -> sat_edges r b proper ps = true.
Proof.
  induction ps as [|[i j] ps IH]; intros A; [reflexivity|]. cbn [sat_edges]. pose proof (A i j (or_introl eq_refl)) as N. destruct (sat_edge r b proper i j) as [[|]|]; [reflexivity| |congruence].
  apply IH. intros i' j' I. apply A. now right.
Qed.
Lemma edges_complete proper ps : sat_edges r b proper ps = true -> (exists i j, In (i, j) ps /\ sat_edge r b proper i j = Some true) \/ forall i j, In (i, j) ps -> sat_edge r b proper i j <> None.
Proof.
  induction ps as [|[i j] ps IH]; intros A; [right; intros i j []|]. cbn [sat_edges] in A. destruct (sat_edge r b proper i j) as [[|]|] eqn:E; [left; exists i, j; split; [now left|auto]| |discriminate].
  destruct (IH A) as [(i' & j' & I & F)|F]; [left; exists i', j'; split; [now right|auto]|right]. intros i' j' [Eq|I]; [injection Eq as <- <-; congruence|auto].
Qed.
Lemma pairs_in i j : In (i, j) sat_pairs <-> (i < 3)%nat /\ (j < 3)%nat.
Proof.
  split.
  - intros I. cbn in I. repeat (destruct I as [I|I]; [injection I as <- <-; lia|]). destruct I.
  - intros [Hi Hj]. destruct i as [|[|[|i]]]; [| | |lia]; destruct j as [|[|[|j]]]; try lia; cbn; tauto.
Qed.

Hypothesis O : orthogonal 3 M.
(** A common point projects into both ranges. *)
Lemma axis_of_point x i j : in_rotbox 3 r x -> in_box 3 b x -> rlo i j <= bhi i j /\ blo i j <= rhi i j.
Proof.
  intros X Y. pose proof (proj1 (in_edge 3 r O x) X) as Xe. clear X.
  assert (E : Rsum 3 (fun q => W i j q * (x q - c q)) = Rsum 3 (fun k => PR i j k * edge 3 r x k)).
  { rewrite (Rsum_ext 3 (fun q => W i j q * (x q - c q)) (fun q => W i j q * mapply 3 (mtr M) (edge 3 r x) q)).
    - unfold mapply, mtr. cbn [Rsum]. ring.
    - intros q Hq. f_equal. pose proof (of_edge 3 r O x q Hq) as F. cbn beta in F. rewrite F. unfold mapply, mtr. transitivity (Rsum 3 (fun k => edge 3 r x k * M k q)); [ring|]. apply Rsum_ext. intros; ring. }
  assert (A : rlo i j <= Rsum 3 (fun k => PR i j k * edge 3 r x k) <= rhi i j) by (split; apply Rsum_le; intros k Hk; apply lo_le, Xe; auto).
  assert (B : blo i j <= Rsum 3 (fun q => W i j q * (x q - c q)) <= bhi i j) by (split; apply Rsum_le; intros q Hq; specialize (Y q Hq); apply lo_le; lra).
  lra.
Qed.
Lemma norm_wax_par i j : (j < 3)%nat -> par M i j -> norm2 3 (W i j) = 0.
Proof. intros Hj [P1 P2]. unfold norm2, inner. rewrite (sum_cyc _ j Hj), wax_0, wax_1, wax_2 by auto. rewrite P1, P2. ring. Qed.
Lemma axis_of_point_open x i j : rb_thick 3 r -> (i < 3)%nat -> (j < 3)%nat -> ~ par M i j -> in_rotbox_open 3 r x -> in_box_open 3 b x -> axis_ok true M l h L U i j.
Proof.
  intros T Hi Hj P X Y. pose proof (proj1 (in_edge_open 3 r O x T) X) as Xe. clear X.
  assert (E : Rsum 3 (fun q => W i j q * (x q - c q)) = Rsum 3 (fun k => PR i j k * edge 3 r x k)).
  { rewrite (Rsum_ext 3 (fun q => W i j q * (x q - c q)) (fun q => W i j q * mapply 3 (mtr M) (edge 3 r x) q)).
    - unfold mapply, mtr. cbn [Rsum]. ring.
    - intros q Hq. f_equal. pose proof (of_edge 3 r O x q Hq) as F. cbn beta in F. rewrite F. unfold mapply, mtr. transitivity (Rsum 3 (fun k => edge 3 r x k * M k q)); [ring|]. apply Rsum_ext. intros; ring. }
  destruct (wax_proj M O i j Hi Hj P) as (k0 & Hk0 & N0).
  assert (A : rlo i j < Rsum 3 (fun k => PR i j k * edge 3 r x k) < rhi i j).
  { split; apply (Rsum_lt 3 _ _ k0); auto; try (intros k Hk; specialize (Xe k Hk); apply lo_le; lra); apply lo_lt; auto. }
  assert (B : blo i j <= Rsum 3 (fun q => W i j q * (x q - c q)) <= bhi i j) by (split; apply Rsum_le; intros q Hq; specialize (Y q Hq); apply lo_le; lra).
  unfold axis_ok. cbn [cmp]. fold (rlo i j) (rhi i j) (blo i j) (bhi i j). lra.
Qed.
Hypothesis V : mvalid (orient r) = true.
Lemma goal3_meet (strict : bool) x : rb_thick 3 r \/ strict = false -> goal3 strict M l h L U x ->
  if strict then meet (in_rotbox_open 3 r) (in_box_open 3 b) else meet (in_rotbox 3 r) (in_box 3 b).
Proof.
  intros T [X Y]. assert (E : forall k, (k < 3)%nat -> edge 3 r (fun i => c i + x i) k = mapply 3 M x k).
  { intros k Hk. unfold edge. apply mapply_ext; auto; [apply meq_refl|]. intros; ring. }
  destruct strict; exists (fun i => c i + x i); (split; [|intros i Hi; specialize (X i Hi); cbn [cmp] in X; lra]).
  - destruct T as [T|T]; [|discriminate]. apply in_edge_open; auto. intros k Hk. rewrite E by auto. apply (Y k Hk).
  - apply in_edge; auto. intros k Hk. rewrite E by auto. apply (Y k Hk).
Qed.
(** Soundness. *)
Lemma rb_box3_sound : 0 <= (eps : R) -> sat_exact -> meet (in_rotbox 3 r) (in_box 3 b) -> i_rb_box3 r b false = true.
Proof.
  intros He Ex Mt. unfold i_rb_box3. rewrite (faces_meet eps 3 r b O Ob He Mt). destruct Mt as (x & X & Y).
  apply edges_sound. intros i j I. apply pairs_in in I. apply edge_none_false; try tauto. right. destruct (axis_of_point x i j X Y). lra.
Qed.
Lemma rb_box3_sound_proper : 0 < (eps : R) -> sat_exact -> rb_thick 3 r -> meet (in_rotbox_open 3 r) (in_box_open 3 b) -> i_rb_box3 r b true = true.
Proof.
  intros He Ex T Mt. unfold i_rb_box3. rewrite (faces_meet_open eps 3 r b O Ob T Mt). destruct Mt as (x & X & Y).
  apply edges_sound. intros i j I. apply pairs_in in I. apply edge_none_proper; try tauto.
  assert (D : par M i j \/ ~ par M i j). { unfold par. destruct (Req_dec (M i (next3 j)) 0), (Req_dec (M i (next3 (next3 j))) 0); tauto. }
  destruct D as [P|P]; [left|right; apply (axis_of_point_open x); tauto]. rewrite norm_wax_par by tauto. now apply Rmult_lt_0_compat.
Qed.
(** Completeness, when no two edges are nearly but not exactly parallel. *)
Definition clear_axes : Prop := forall i j, (i < 3)%nat -> (j < 3)%nat -> par M i j \/ eps * eps <= norm2 3 (W i j).
Lemma rb_box3_complete_proper : 0 <= (eps : R) -> sat_exact -> clear_axes -> rb_thick 3 r -> box_thick 3 b -> i_rb_box3 r b true = true -> meet (in_rotbox_open 3 r) (in_box_open 3 b).
Proof.
  intros He Ex Cl T Tb E. unfold i_rb_box3 in E. destruct (rb_box_faces 3 r b true) eqn:F; [|discriminate]. apply (faces_cmp eps 3 r b Ob) in F. destruct F as [Fx Fy].
  assert (Bx : forall i, (i < 3)%nat -> cmp true (l i) (h i)) by (intros i Hi; specialize (Tb i Hi); cbn; lra).
  assert (By : forall k, (k < 3)%nat -> cmp true (L k) (U k)) by (intros k Hk; specialize (T k Hk); cbn; unfold Rmin, Rmax; destruct Rle_dec; lra).
  assert (D : forall i j, (i < 3)%nat -> (j < 3)%nat -> par M i j \/ ~ par M i j). { intros. unfold par. destruct (Req_dec (M i (next3 j)) 0), (Req_dec (M i (next3 (next3 j))) 0); tauto. }
  apply edges_complete in E. destruct E as [(i & j & I & E)|E].
  - apply pairs_in in I. destruct I as [Hi Hj]. apply edge_early in E; auto. destruct (Cl i j Hi Hj) as [P|P]; [|lra].
    destruct (sat3_parallel true M l h L U O Bx By Fx Fy i j Hi Hj P) as (x & X). exact (goal3_meet true x (or_introl T) X).
  - assert (A : (exists i j, (i < 3)%nat /\ (j < 3)%nat /\ par M i j) \/ forall i j, (i < 3)%nat -> (j < 3)%nat -> ~ par M i j).
    { destruct (D 0%nat 0%nat ltac:(lia) ltac:(lia)) as [?|?]; [left; do 2 eexists; split; [|split; [|eassumption]]; lia|]. destruct (D 0%nat 1%nat ltac:(lia) ltac:(lia)) as [?|?]; [left; do 2 eexists; split; [|split; [|eassumption]]; lia|]. destruct (D 0%nat 2%nat ltac:(lia) ltac:(lia)) as [?|?]; [left; do 2 eexists; split; [|split; [|eassumption]]; lia|].
      destruct (D 1%nat 0%nat ltac:(lia) ltac:(lia)) as [?|?]; [left; do 2 eexists; split; [|split; [|eassumption]]; lia|]. destruct (D 1%nat 1%nat ltac:(lia) ltac:(lia)) as [?|?]; [left; do 2 eexists; split; [|split; [|eassumption]]; lia|]. destruct (D 1%nat 2%nat ltac:(lia) ltac:(lia)) as [?|?]; [left; do 2 eexists; split; [|split; [|eassumption]]; lia|].
      destruct (D 2%nat 0%nat ltac:(lia) ltac:(lia)) as [?|?]; [left; do 2 eexists; split; [|split; [|eassumption]]; lia|]. destruct (D 2%nat 1%nat ltac:(lia) ltac:(lia)) as [?|?]; [left; do 2 eexists; split; [|split; [|eassumption]]; lia|]. destruct (D 2%nat 2%nat ltac:(lia) ltac:(lia)) as [?|?]; [left; do 2 eexists; split; [|split; [|eassumption]]; lia|].
      right. intros i j Hi Hj. destruct i as [|[|[|i]]]; [| | |lia]; destruct j as [|[|[|j]]]; try lia; assumption. }
    destruct A as [(i & j & Hi & Hj & P)|A].
    + destruct (sat3_parallel true M l h L U O Bx By Fx Fy i j Hi Hj P) as (x & X). exact (goal3_meet true x (or_introl T) X).
    + destruct (sat3 true M l h L U O Bx By Fx Fy) as (x & X); [|exact (goal3_meet true x (or_introl T) X)].
      intros i j Hi Hj. pose proof (E i j (proj2 (pairs_in i j) (conj Hi Hj))) as N. apply edge_none_proper in N; auto. destruct N as [N|N]; auto. destruct (Cl i j Hi Hj) as [P|P]; [now apply A in P|lra].
Qed.
End Edges.

Section Z3.
Let Ez : Epsilon := 0.
Existing Instance Ez.
Lemma sat_exact0 r b : sat_exact 0 r b.
Proof. intros i j Hi Hj. split; [|intros k Hk]; apply dot_inner. Qed.
Lemma rb_box3 r b : mvalid (orient r) = true -> orthogonal 3 (ent (orient r)) -> box_ordered 3 b -> (i_rb_box3 (H := Rnum 0) r b false = true <-> meet (in_rotbox 3 r) (in_box 3 b)).
Proof.
  intros V O Ob. split; [|intros Mt; apply (rb_box3_sound 0); auto; [apply Rle_refl|apply sat_exact0]].
  intros E. unfold i_rb_box3 in E. destruct (rb_box_faces 3 r b false) eqn:F; [|discriminate]. apply (faces_cmp_le 0 3 r b Ob) in F. destruct F as [Fx Fy].
  assert (EE : forall i j, (i < 3)%nat -> (j < 3)%nat -> sat_edge (H := Rnum 0) r b false i j <> None).
  { apply (edges_complete 0) in E. destruct E as [(i & j & I & E)|E]; [|intros i j Hi Hj; apply E; now apply pairs_in].
    apply pairs_in in I. apply (edge_early 0) in E; [|auto|apply sat_exact0|tauto|tauto]. pose proof (norm2_nonneg 3 (wax (ent (orient r)) i j)). rewrite Rmult_0_l in E. lra. }
  destruct (sat3 false (ent (orient r)) (fun i => co (low b) i - co (corner0 r) i) (fun i => co (high b) i - co (corner0 r) i) (fun k => Rmin 0 (co (rsize r) k)) (fun k => Rmax 0 (co (rsize r) k)) O) as (x & X).
  - intros i Hi. specialize (Ob i Hi). cbn. lra.
  - intros k Hk. cbn. unfold Rmin, Rmax. destruct Rle_dec; lra.
  - intros i Hi. specialize (Fx i Hi). cbn [cmp]. lra.
  - intros k Hk. specialize (Fy k Hk). cbn [cmp]. lra.
  - intros i j Hi Hj. pose proof (EE i j Hi Hj) as N. apply (edge_none_false 0) in N; auto; [|apply sat_exact0]. unfold axis_ok. cbn [cmp].
    fold (rlo r i j) (rhi r i j) (blo r b i j) (bhi r b i j). destruct N as [N|N]; [|lra].
    pose proof (norm2_nonneg 3 (wax (ent (orient r)) i j)). rewrite Rmult_0_l in N. lra.
  - exact (goal3_meet r b O false x (or_intror eq_refl) X).
Qed.
End Z3.
