(** The axes of a polygon in space are zero or unit vectors after any sequence of operations on its corners. *)
From Coq Require Import Reals List Bool Lra Lia Psatz.
From Flocq Require Import Core.Raux.
From Verif Require Import Base Scalar ConstModel VecModel RotModel QuatModel VecSpec RSpec RLib VecProofs VecProofs4 ConstProofs ShapeSpec ShapeModel ShapeProofs3 MotionProofs2 PolyModel PolySpec PolyProofs PropPoly SpaceSpec.
Import ListNotations.
Open Scope R_scope.

Section Axes.
Context (eps : Epsilon).
Variable n : nat.
Definition unit_or_zero (v : nat -> R) : Prop := norm2 n v = 0 \/ norm2 n v = 1.
Lemma div_unit (v : coords R) b : 0 < norm2 n (co v) -> norm2 n (co (set_valid (vec_div n v (mag n v)) b)) = 1.
Proof.
  intros P. rewrite set_valid_co. rewrite mag_norm. assert (Q : 0 < norm n (co v)) by (apply sqrt_lt_R0; auto).
  rewrite (norm2_ext n _ (fun i => / norm n (co v) * co v i)). 2:{ intros i Hi. rewrite div_co by auto. unfold Rdiv. ring. }
  rewrite norm2_scal. assert (S : norm n (co v) * norm n (co v) = norm2 n (co v)) by (apply sqrt_sqrt; lra). rewrite <- S. field. lra.
Qed.
(** Dot is zero on a zero vector. *)
Lemma dot_zero_l (a b : coords R) : norm2 n (co a) = 0 -> dot n a b = 0.
Proof.
  intros Z. assert (I : inner n (co a) (co b) = 0). { unfold inner. apply Rsum_zero. intros i Hi. rewrite (norm2_zero n _ Z i Hi). ring. }
  rewrite (dot_def eps). rewrite I. destruct (Rle_bool _ _); reflexivity.
Qed.
Lemma expand_axes o x epsilon o' q : 0 <= epsilon -> axes_ok n o -> orient_expand n o x epsilon = Some (o', q) -> axes_ok n o'.
Proof.
  intros He [A0 A1]. unfold orient_expand. destruct (valid (porigin o)); cbn [negb]; [|intros E; injection E as <- _; split; auto].
  set (start := vec_sub n x (porigin o)). set (bound := (sqr_mag n start * epsilon)%num).
  assert (B : 0 <= bound). { unfold bound. rewrite sqr_mag_norm2. cbn [nmul Rnum]. apply Rmult_le_pos; auto. apply norm2_nonneg. }
  destruct (dot n start start <=? bound)%num eqn:D; [intros E; injection E as <- _; split; auto|].
  assert (P : forall v w : coords R, (dot n v w <=? bound)%num = false -> 0 < norm2 n (co v)).
  { intros v w F. cbn [nleb Rnum] in F. apply Rleb_false in F. destruct (Rle_lt_or_eq_dec 0 (norm2 n (co v)) (norm2_nonneg n (co v))) as [X|X]; auto. rewrite dot_zero_l in F; auto. lra. }
  destruct (valid (pax0 o)); cbn [negb].
  - set (x0 := dot n start (pax0 o)). set (shift := vec_sub n start (vec_scale n (pax0 o) x0)). destruct (dot n shift start <=? bound)%num eqn:D2; [intros E; injection E as <- _; split; auto|].
    destruct (valid (pax1 o)); cbn [negb].
    + match goal with |- (if ?c then _ else _) = _ -> _ => destruct c end; intros E; [|discriminate]. assert (Eo : o = o') by congruence. rewrite <- Eo. split; auto.
    + intros E. injection E as <- _. split; cbn [pax0 pax1]; auto. right. apply div_unit. now apply (P shift start).
  - intros E. injection E as <- _. split; cbn [pax0 pax1]; auto. right. apply div_unit. now apply (P start start).
Qed.
Lemma reduce_axes o poly skip o' re : frame_ok n o -> axes_ok n o -> orient_reduce n o poly skip = Ret (o', re) -> axes_ok n o'.
Proof.
  intros F [A0 A1]. unfold orient_reduce. destruct (Nat.leb _ _); [intros E; injection E as <- _; split; auto|].
  destruct (valid (porigin o)); cbn [oassert]; [|discriminate]. destruct (valid (pax0 o)) eqn:V0; cbn [negb]; [|intros E; injection E as <- _; split; auto].
  destruct (skipn _ poly) as [|f rest]; [discriminate|]. destruct (reduce_loop o _ _ rest skip _ _) as [r| | |]; try discriminate. cbn [obind].
  destruct r as [s|]; [|intros E; injection E as <- _; split; auto].
  destruct (sv0 s); [|destruct (sv1 s)].
  - destruct (valid (pax1 o) && negb (sv1 s) && negb (got_ratio s)); cbn [oassert]; [|discriminate]. intros E. injection E as <- _. split; auto.
  - destruct (valid (pax1 o) && negb (got_ratio s)); cbn [oassert]; [|discriminate]. intros E. injection E as <- _. split; auto.
  - destruct (ratio s) as [rt|]; [|intros E; injection E as <- _; split; auto]. destruct (valid (pax1 o)) eqn:V1; cbn [oassert]; [|discriminate]. intros E. injection E as <- _. split; cbn [pax0 pax1]; auto.
    right. destruct F as (_ & _ & F3 & F4). specialize (F3 V0). destruct (F4 V1) as [B AB].
    set (v := vec_add n (pax0 o) (vec_scale n (pax1 o) rt)). change (norm2 n (co (set_valid (vec_div n v (mag n v)) (valid (vec_div n v (mag n v))))) = 1). apply div_unit.
    rewrite (norm2_ext n _ (fun i => co (pax0 o) i + rt * co (pax1 o) i)). 2:{ intros i Hi. unfold v. rewrite add_co, scale_co by auto. ring. }
    rewrite norm2_plus, norm2_scal, inner_scal_r, F3, B, AB. pose proof (Rle_0_sqr rt) as Q. unfold Rsqr in Q. lra.
Qed.
Lemma history_axes (p : polygon R) : 0 < (eps : R) -> pg_history eps n p -> axes_ok n (pplane p).
Proof.
  intros He Hh. induction Hh as [|p Hh IH|p i x epsilon b p' Hh IH Hp Ex E|p i p' Hh IH E|p i x epsilon b p' Hh IH Hp Ex E].
  - assert (Z : norm2 n (co (coords_default (T := R) n)) = 0). { unfold norm2, inner. apply Rsum_zero. intros i Hi. unfold coords_default. rewrite co_tab by auto. unfold n0. cbn. ring. } split; now left.
  - assert (Z : norm2 n (co (coords_default (T := R) n)) = 0). { unfold norm2, inner. apply Rsum_zero. intros i Hi. unfold coords_default. rewrite co_tab by auto. unfold n0. cbn. ring. } split; now left.
  - unfold pg_add in E. destruct (orient_expand n (pplane p) x epsilon) as [[o q]|] eqn:X; [|now injection E as <- <-].
    destruct (poly_add (pcorners p) i q) as [l| | |]; try discriminate. cbn [obind] in E. injection E as <- <-. cbn [pplane]. now apply (expand_axes (pplane p) x epsilon o q).
  - destruct (C49_polygon_history eps n p He Hh) as [O _]. unfold pg_remove in E. destruct (poly_remove (pcorners p) i) as [l| | |]; try discriminate. cbn [obind] in E.
    destruct (orient_reduce n (pplane p) l None) as [[o r]| | |] eqn:X; try discriminate. cbn [obind] in E. injection E as <-. cbn [pplane]. apply (reduce_axes (pplane p) l None o r); auto. apply (proj1 O).
  - destruct (C49_polygon_history eps n p He Hh) as [O _]. unfold pg_move in E. destruct (orient_reduce n (pplane p) (pcorners p) (Some i)) as [[o r]| | |] eqn:X; try discriminate. cbn [obind] in E.
    destruct (orient_expand n o x epsilon) as [[o2 q]|] eqn:Y; [|now injection E as <- <-].
    destruct (oset _ i q) as [l| | |]; try discriminate. cbn [obind] in E. injection E as <- <-. cbn [pplane]. apply (expand_axes o x epsilon o2 q); auto. apply (reduce_axes (pplane p) (pcorners p) (Some i) o r); auto. apply (proj1 O).
Qed.
End Axes.
