(** Polygons in space against boxes and rotated boxes: a positive answer of the intersection tests is right, in exact arithmetic. *)
From Coq Require Import Reals List Bool Lra Lia Psatz Permutation Classical.
From Flocq Require Import Core.Raux.
From Verif Require Import Base Scalar ConstModel VecModel RotModel QuatModel VecSpec RSpec RotSpec RLib MatLib VecProofs VecProofs4 ConstProofs ShapeSpec ShapeModel IntersectModel ShapeProofs ShapeProofs2 ShapeProofs3 BallProofs RotProofs2 RotProofs3 RbProofs RbProofs2 MotionProofs2 PolyModel PolySpec PolyProofs PolyIntersectModel EvenOddSpec EvenOddProofs RegionSpec RegionProofs PolyShapeProofs PolyShapeProofs2 SpaceSpec PolySpaceProofs PropBox PropMotion PropSeg.
Import ListNotations.
Open Scope R_scope.
#[local] Existing Instance Rnum | 0.
#[local] Existing Instance eps0.

Section Space.
Variable n : nat.
Lemma map_ret_rel {A B} (f : A -> outcome B) l : forall ys, map_ret f l = Ret ys -> Forall2 (fun x y => f x = Ret y) l ys.
Proof.
  induction l as [|x l IH]; cbn [map_ret]; intros ys E; [injection E as <-; constructor|].
  destruct (f x) as [y| | |] eqn:F; try discriminate. cbn [obind] in E. destruct (map_ret f l) as [zs| | |]; try discriminate. cbn [obind] in E. injection E as <-. constructor; auto.
Qed.
Lemma combine_rel {A B} (P : A -> B -> Prop) l m : Forall2 P l m -> forall l' m', Forall2 P l' m' -> forall a b, In (a, b) (combine m m') -> exists a0 b0, In (a0, b0) (combine l l') /\ P a0 a /\ P b0 b.
Proof.
  induction 1 as [|x y l m Q F IH]; intros l' m' G a b I; [destruct I|]. destruct G as [|x' y' l' m' Q' G]; [destruct I|]. cbn [combine In] in I |- *. destruct I as [E|I].
  - injection E as <- <-. exists x, x'. auto.
  - destruct (IH _ _ G a b I) as (a0 & b0 & J & X). exists a0, b0. auto.
Qed.
Lemma sides_rel {A B} (P : A -> B -> Prop) l m : Forall2 P l m -> forall a b, In (a, b) (sides m) -> exists a0 b0, In (a0, b0) (sides l) /\ P a0 a /\ P b0 b.
Proof.
  intros F. destruct F as [|x y l m Q F]; [intros a b []|]. unfold sides. apply combine_rel; [constructor; auto|]. apply Forall2_app; auto.
Qed.
Lemma placed_mix o t (u v : pt) : pteq n (placed o (fun k => (1 - t) * u k + t * v k)) (fun i => (1 - t) * placed o u i + t * placed o v i).
Proof. intros i Hi. unfold placed. destruct (valid (pax0 o)), (valid (pax1 o)); ring. Qed.
Lemma seg_mix (a b : coords R) x : in_segment n (mkS a b) x -> exists t, 0 <= t <= 1 /\ pteq n x (fun i => (1 - t) * co a i + t * co b i).
Proof. intros (t & T & E). exists t. split; auto. Qed.
Lemma box_with_sound o l b proper : box_ordered n b -> (forall c, In c l -> plane_ok o (co c)) -> pg_box_with n o l b proper = Ret true ->
  exists u, on_boundary l u /\ boxed n proper b (placed o u).
Proof.
  intros Ob Fl. unfold pg_box_with. destruct l as [|c0 l0] eqn:El; [discriminate|]. rewrite <- El in *. clear El c0 l0.
  destruct (orient_box n o b proper) as [[q|]| | |]; try discriminate. cbn [obind]. destruct (map_ret (orient_convert n o) l) as [cs| | |] eqn:M; try discriminate. cbn [obind].
  destruct (existsb _ (chain cs)) eqn:Ex; [|discriminate]. intros _. apply existsb_exists in Ex. destruct Ex as (s & Is & Hs).
  assert (F : Forall2 (fun x y : coords R => pteq n (co y) (placed o (co x))) l cs).
  { pose proof (map_ret_rel _ _ _ M) as G. clear - G Fl. induction G as [|x y l m Q F IH]; [constructor|]. constructor.
    - destruct (convert_def eps0 n o x (Fl x (or_introl eq_refl))) as (c & Ec & _ & P). unfold point in *. assert (c = y) as -> by congruence. intros i Hi. rewrite (P i Hi). symmetry. exact (placed_at n o (co x) i Hi).
    - apply IH. intros c I. apply Fl. now right. }
  assert (Me : exists x, in_segment n s x /\ boxed n proper b x).
  { destruct proper; unfold boxed.
    - apply (C44_box_exact n s b Ob) in Hs. destruct Hs as (x & (t & T & E) & X). exists x. split; auto. exists t. split; auto. lra.
    - apply (C44_box_exact n s b Ob) in Hs. exact Hs. }
  destruct Me as (x & Sx & Bx). destruct s as [a d]. destruct (seg_mix a d x Sx) as (t & T & E).
  destruct (chain_side cs _ Is) as [I|I]; cbn [end1 end2] in I; destruct (sides_rel _ _ _ F _ _ I) as (a0 & d0 & I0 & Pa & Pd).
  - exists (fun k => (1 - t) * co a0 k + t * co d0 k). split; [exists a0, d0; split; auto; exists t; split; auto; intros i Hi; reflexivity|].
    apply (boxed_ext n proper b x); auto. intros i Hi. rewrite (placed_mix o t (co a0) (co d0) i Hi), (E i Hi), (Pa i Hi), (Pd i Hi). reflexivity.
  - exists (fun k => (1 - (1 - t)) * co a0 k + (1 - t) * co d0 k). split; [exists a0, d0; split; auto; exists (1 - t); split; [lra|]; intros i Hi; reflexivity|].
    apply (boxed_ext n proper b x); auto. intros i Hi. rewrite (placed_mix o (1 - t) (co a0) (co d0) i Hi), (E i Hi), (Pa i Hi), (Pd i Hi). ring.
Qed.
Lemma ok_plane p : pg_ok n p -> forall c, In c (pcorners p) -> plane_ok (pplane p) (co c).
Proof. intros [_ F] c I. rewrite Forall_forall in F. apply (F c I). Qed.
Lemma space_box_sound p b proper : pg_ok n p -> box_ordered n b -> i_pg_box n p b proper = Ret true -> meet (space_region n p) (boxed n proper b).
Proof.
  intros O Ob E. destruct (box_with_sound (pplane p) (pcorners p) b proper Ob (ok_plane p O) E) as (u & U & B). exists (placed (pplane p) u). split; auto. exists u. split; [now left|intros i Hi; reflexivity].
Qed.
Lemma space_rb_sound p r proper : pg_ok n p -> mvalid (orient r) = true -> valid (corner0 r) = true -> orthogonal n (ent (orient r)) -> (proper = true -> rb_thick n r) ->
  i_pg_rb n p r proper = Ret true -> meet (space_region n p) (rboxed n proper r).
Proof.
  intros O Mv Vc Or Th. unfold i_pg_rb, rb_orient. set (m := rot_inverse n (orient r)). set (o' := orient_rotate n (pplane p) m (corner0 r)).
  assert (Mvm : mvalid m = true) by (unfold m; exact Mv).
  pose proof (rotate_plane eps0 n (pplane p) m (corner0 r) Mvm Vc) as (V & V0 & V1 & M). fold o' in V, V0, V1, M.
  assert (Pl : forall u, plane_ok (pplane p) u -> pteq n (placed o' u) (frame n r (placed (pplane p) u))).
  { intros u U i Hi. rewrite (placed_at n o' u i Hi), (M u U i Hi). unfold m; transitivity (frame n r (plane_at (pplane p) u) i); [exact (turned_frame eps0 n r (plane_at (pplane p) u) i Hi)|]. apply (frame_ext n r); auto. intros j Hj. symmetry. exact (placed_at n (pplane p) u j Hj). }
  assert (Rb : forall x, rboxed n proper r x <-> boxed n proper (rb_own_box n r) (frame n r x)). { intros x. unfold rboxed, boxed. destruct proper; [apply (in_frame_open eps0 n r Or)|apply (in_frame eps0 n r Or)]; auto. }
  intros E. destruct (box_with_sound o' (pcorners p) (rb_own_box n r) proper) as (u & U & B); auto.
  { apply own_ordered. }
  { intros c I. destruct (ok_plane p O c I) as (A & B & C). split; [now rewrite V|]. now rewrite V0, V1. }
  assert (Ru : region (pcorners p) u) by now left.
  assert (K : plane_ok (pplane p) u). { destruct (region_flat n p u O Ru) as [U0 U1]. split; [|split; auto]. destruct (pcorners p) as [|c l] eqn:El; [now apply region_nil in Ru|]. apply (ok_plane p O c). rewrite El. now left. }
  exists (placed (pplane p) u). split; [exists u; split; auto; intros i Hi; reflexivity|]. apply Rb. apply (boxed_ext n proper _ (placed o' u)); auto.
Qed.
End Space.
