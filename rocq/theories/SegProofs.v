(** Segments: proofs (exact comparisons). *)
From Coq Require Import ZArith NArith Reals Bool List Lia Lra Psatz.
From Flocq Require Import Core.Raux.
From Verif Require Import Base Scalar ConstModel VecModel RotModel QuatModel ShapeModel IntersectModel RSpec VecSpec RotSpec ShapeSpec RLib OrdLib ConstProofs VecProofs VecProofs4 ShapeProofs ShapeProofs2 ShapeProofs3 BallProofs.
Import ListNotations.
Open Scope R_scope.

(** ** Geometry *)
Section Geo.
Variable n : nat.
Definition on (a b x : pt) : Prop := exists t, 0 <= t <= 1 /\ pteq n x (lerp a b t).
Definition on_open (a b x : pt) : Prop := exists t, 0 < t < 1 /\ pteq n x (lerp a b t).
Notation dif a b := (fun i => a i - b i).

Lemma at_t a b p t : pteq n p (lerp a b t) ->
  inner n (dif a p) (dif b p) = - (t * (1 - t)) * norm2 n (dif b a) /\ norm2 n (dif a p) = t * t * norm2 n (dif b a) /\
  norm2 n (dif b p) = (1 - t) * (1 - t) * norm2 n (dif b a).
Proof.
  intros E.
  assert (A : forall i, (i < n)%nat -> a i - p i = (- t) * (b i - a i)) by (intros i Hi; rewrite (E i Hi); unfold lerp; ring).
  assert (B : forall i, (i < n)%nat -> b i - p i = (1 - t) * (b i - a i)) by (intros i Hi; rewrite (E i Hi); unfold lerp; ring).
  unfold norm2. split; [|split].
  - rewrite (inner_ext n _ _ _ _ A B). rewrite inner_scal_l, inner_scal_r. ring.
  - rewrite (inner_ext n _ _ _ _ A A). rewrite inner_scal_l, inner_scal_r. ring.
  - rewrite (inner_ext n _ _ _ _ B B). rewrite inner_scal_l, inner_scal_r. ring.
Qed.
Lemma cs_equal u v : inner n u v * inner n u v = norm2 n u * norm2 n v -> forall i, (i < n)%nat -> norm2 n v * u i = inner n u v * v i.
Proof.
  intros E i Hi.
  assert (Z : norm2 n (fun i => norm2 n v * u i - inner n u v * v i) = 0).
  { rewrite (norm2_minus n (fun i => norm2 n v * u i) (fun i => inner n u v * v i)). rewrite !norm2_scal. rewrite inner_scal_l, inner_scal_r.
    transitivity (norm2 n v * (norm2 n u * norm2 n v - inner n u v * inner n u v)); [ring|]. rewrite E. ring. }
  pose proof (norm2_zero n _ Z i Hi). cbn beta in H. lra.
Qed.
Lemma seg_point_geo a b p : inner n (dif a p) (dif b p) <= 0 /\ inner n (dif a p) (dif b p) * inner n (dif a p) (dif b p) = norm2 n (dif a p) * norm2 n (dif b p)
  <-> on a b p.
Proof.
  split.
  - intros [L E]. pose proof (cs_equal _ _ E) as C. set (pr := inner n (dif a p) (dif b p)) in *. pose proof (norm2_nonneg n (dif b p)) as P.
    destruct (Req_dec (norm2 n (dif b p)) 0) as [Z|NZ].
    + exists 1. split; [lra|]. intros i Hi. pose proof (norm2_zero n _ Z i Hi) as Q. cbn beta in Q. unfold lerp. lra.
    + set (N := norm2 n (dif b p)) in *. assert (0 < N) by lra. exists (- pr / (N - pr)). split.
      * split; [apply Rmult_le_pos; [lra|left; apply Rinv_0_lt_compat; lra]|apply div_le_1; lra].
      * intros i Hi. specialize (C i Hi). cbn beta in C. unfold lerp.
        apply Rmult_eq_reg_r with (N - pr); [|lra]. transitivity (N * a i - pr * b i); [lra|]. field. lra.
  - intros (t & Ht & E). destruct (at_t _ _ _ _ E) as (-> & -> & ->). pose proof (norm2_nonneg n (dif b a)). split; [|ring].
    assert (0 <= t * (1 - t)) by (apply Rmult_le_pos; lra). nra.
Qed.
Lemma diff_pos a b : ~ pteq n a b -> 0 < norm2 n (dif b a).
Proof.
  intros N. pose proof (norm2_nonneg n (dif b a)). destruct (Req_dec (norm2 n (dif b a)) 0) as [Z|]; [|lra]. exfalso. apply N. intros i Hi.
  pose proof (norm2_zero n _ Z i Hi) as Q. cbn beta in Q. lra.
Qed.
Lemma seg_point_geo_open a b p : ~ pteq n a b ->
  (inner n (dif a p) (dif b p) < 0 /\ inner n (dif a p) (dif b p) * inner n (dif a p) (dif b p) = norm2 n (dif a p) * norm2 n (dif b p) <-> on_open a b p).
Proof.
  intros Ne. apply diff_pos in Ne. split.
  - intros [L E]. destruct (proj1 (seg_point_geo a b p) (conj (Rlt_le _ _ L) E)) as (t & Ht & Ep). exists t. split; auto.
    destruct (at_t _ _ _ _ Ep) as (Q & _ & _). rewrite Q in L. clear - L Ht Ne.
    split; [destruct (Req_dec t 0) as [->|]; [nra|lra]|destruct (Req_dec t 1) as [->|]; [nra|lra]].
  - intros (t & Ht & E). destruct (at_t _ _ _ _ E) as (-> & -> & ->). split; [|ring]. assert (0 < t * (1 - t)) by (apply Rmult_lt_0_compat; lra). nra.
Qed.

Lemma on_ends a b : on a b a /\ on a b b.
Proof. split; [exists 0|exists 1]; (split; [lra|intros i Hi; unfold lerp; ring]). Qed.
Lemma on_convex a b c d x : on a b c -> on a b d -> on c d x -> on a b x.
Proof.
  intros (t & Ht & Et) (s & Hs & Es) (u & Hu & Eu). exists ((1 - u) * t + u * s). split; [split; nra|].
  intros i Hi. rewrite (Eu i Hi). unfold lerp. rewrite (Et i Hi), (Es i Hi). unfold lerp. ring.
Qed.
Lemma mix_pos u t s : 0 <= u <= 1 -> 0 < t -> 0 < s -> 0 < (1 - u) * t + u * s.
Proof.
  intros Hu Ht Hs. destruct (Rle_lt_dec u (1 / 2)).
  - assert (0 < (1 - u) * t) by (apply Rmult_lt_0_compat; lra). assert (0 <= u * s) by (apply Rmult_le_pos; lra). lra.
  - assert (0 <= (1 - u) * t) by (apply Rmult_le_pos; lra). assert (0 < u * s) by (apply Rmult_lt_0_compat; lra). lra.
Qed.
Lemma on_convex_open a b c d x : on_open a b c -> on_open a b d -> on c d x -> on_open a b x.
Proof.
  intros (t & Ht & Et) (s & Hs & Es) (u & Hu & Eu). exists ((1 - u) * t + u * s). split.
  { pose proof (mix_pos u t s Hu (proj1 Ht) (proj1 Hs)). pose proof (mix_pos u (1 - t) (1 - s) Hu ltac:(lra) ltac:(lra)). lra. }
  intros i Hi. rewrite (Eu i Hi). unfold lerp. rewrite (Et i Hi), (Es i Hi). unfold lerp. ring.
Qed.
(** Three points along two different axes are not on one segment. *)
Lemma not_collinear a b (c : pt) i j u v : (i < n)%nat -> (j < n)%nat -> i <> j -> u <> 0 -> v <> 0 ->
  on a b c -> on a b (fun k => c k + u * delta i k) -> on a b (fun k => c k + v * delta j k) -> False.
Proof.
  intros Hi Hj Nij Hu Hv (t & _ & Et) (s & _ & Es) (w & _ & Ew).
  pose proof (Et i Hi) as Ti. pose proof (Et j Hj) as Tj. pose proof (Es i Hi) as Si. pose proof (Es j Hj) as Sj. pose proof (Ew j Hj) as Wj.
  cbn beta in Si, Sj, Wj. rewrite delta_same in Si, Wj. rewrite (delta_diff i j) in Sj by auto. unfold lerp in *.
  assert (A : u = (s - t) * (b i - a i)) by lra. assert (B : 0 = (s - t) * (b j - a j)) by lra. assert (C : v = (w - t) * (b j - a j)) by lra.
  assert (s - t <> 0) by (intros Q; rewrite Q in A; lra). assert (b j - a j = 0) by (symmetry in B; apply Rmult_integral in B; tauto). rewrite H0 in C. lra.
Qed.
End Geo.

Section Z.
Variable n : nat.
#[local] Instance Ez : Epsilon := 0.
Notation p_ s := (co s).

Lemma sub_pt (p q : coords R) : forall i, (i < n)%nat -> co (vec_sub n p q) i = co p i - co q i.
Proof. intros. now apply sub_co. Qed.
Lemma dot_sub (a b c d : point R) : dot n (vec_sub n a b) (vec_sub n c d) = inner n (fun i => co a i - co b i) (fun i => co c i - co d i).
Proof. unfold Ez. rewrite (dot_inner n). apply inner_ext; intros; now apply sub_co. Qed.
Lemma sqr_sub (a b : point R) : sqr_mag n (vec_sub n a b) = norm2 n (fun i => co a i - co b i).
Proof. rewrite sqr_mag_norm2. unfold norm2. apply inner_ext; intros; now apply sub_co. Qed.

Lemma seg_point s p : i_seg_point n s p false = true <-> in_segment n s (co p).
Proof.
  unfold i_seg_point. rewrite dot_sub, !sqr_sub. change (in_segment n s (co p)) with (on n (co (end1 s)) (co (end2 s)) (co p)). rewrite <- seg_point_geo.
  destruct (greater_ _ n0 false) eqn:G.
  - apply Bool.not_false_iff_true in G. rewrite greater_false in G. unfold n0 in G. cbn [nofZ Rnum] in G. unfold epsilon, Ez in G. split; [discriminate|]. intros [L _]. exfalso. apply G. lra.
  - apply greater_false in G. unfold n0 in G. cbn [nofZ Rnum] in G. unfold epsilon, Ez in G. cbn [neps Rnum]. unfold epsilon, Ez. rewrite (equal_R_exact0 0). cbn [nmul Rnum].
    split; [intros E; split; [lra|exact E]|tauto].
Qed.
Lemma seg_point_proper s p : ~ pteq n (co (end1 s)) (co (end2 s)) -> (i_seg_point n s p true = true <-> in_segment_open n s (co p)).
Proof.
  intros Ne. unfold i_seg_point. rewrite dot_sub, !sqr_sub. change (in_segment_open n s (co p)) with (on_open n (co (end1 s)) (co (end2 s)) (co p)). rewrite <- seg_point_geo_open by auto.
  destruct (greater_ _ n0 true) eqn:G.
  - apply Bool.not_false_iff_true in G. rewrite greater_proper in G. unfold n0 in G. cbn [nofZ Rnum] in G. split; [discriminate|]. intros [L _]. exfalso. apply G. lra.
  - apply greater_proper in G. unfold n0 in G. cbn [nofZ Rnum] in G. cbn [neps Rnum]. unfold epsilon, Ez. rewrite (equal_R_exact0 0). cbn [nmul Rnum].
    split; [intros E; split; [lra|exact E]|tauto].
Qed.
(** A segment of length zero properly contains nothing. *)
Lemma seg_point_flat s p : pteq n (co (end1 s)) (co (end2 s)) -> i_seg_point n s p true = false.
Proof.
  intros E. unfold i_seg_point. rewrite dot_sub. destruct (greater_ _ n0 true) eqn:G; auto. exfalso. apply greater_proper in G. unfold n0 in G. cbn [nofZ Rnum] in G.
  rewrite (inner_ext n _ _ (fun i => co (end2 s) i - co p i) (fun i => co (end2 s) i - co p i)) in G by (auto; intros i Hi; now rewrite E).
  pose proof (norm2_nonneg n (fun i => co (end2 s) i - co p i)). unfold norm2 in H. lra.
Qed.
End Z.
