(** Proofs about motions of corner lists and of polygons in space. *)
From Coq Require Import ZArith NArith Reals Bool List Lia Lra Psatz.
From Flocq Require Import Core.Raux.
From Verif Require Import Base Scalar ConstModel VecModel RotModel QuatModel ShapeModel PolyModel RSpec VecSpec RotSpec QuatSpec ShapeSpec MotionSpec RLib MatLib OrdLib VecProofs VecProofs2 VecProofs3 VecProofs4 VecProofs5 RotProofs2 RotProofs3 ShapeProofs3 RbProofs RbProofs2 MotionProofs.
Import ListNotations.
Open Scope R_scope.

Section Lists.
Context (eps : Epsilon).
Variable n : nat.
Lemma map_moved b f g (l : list (coords R)) : (forall c, In c l -> pteq n (co (g c)) (f (co c)) /\ valid (g c) = valid c && b) -> list_moved n b f l (map g l).
Proof.
  intros E. induction l as [|c l IH]; constructor; [apply E; now left|]. apply IH. intros d D. apply E. now right.
Qed.
Lemma moved_nth b f l l' i c : list_moved n b f l l' -> oget l i = Ret c -> exists c', oget l' i = Ret c' /\ pteq n (co c') (f (co c)) /\ valid c' = valid c && b.
Proof.
  unfold oget. intros M. revert i. induction M as [|x x' l l' X M IH]; intros i; destruct i as [|i]; cbn [nth_error]; try discriminate; auto.
  intros E. injection E as <-. exists x'. auto.
Qed.
Lemma moved_length b f l l' : list_moved n b f l l' -> length l' = length l.
Proof. intros M. induction M; cbn; auto. Qed.
Lemma lsum_ext {A} (f g : A -> R) l : (forall x, In x l -> f x = g x) -> lsum f l = lsum g l.
Proof. intros E. induction l as [|x l IH]; cbn [lsum]; auto. rewrite (E x) by now left. f_equal. apply IH. intros y Y. apply E. now right. Qed.
Lemma lsum_plus {A} (f g : A -> R) l : lsum (fun x => f x + g x) l = lsum f l + lsum g l.
Proof. induction l as [|x l IH]; cbn; [ring|rewrite IH; ring]. Qed.
Lemma lsum_const {A} k (l : list A) : lsum (fun _ => k) l = INR (length l) * k.
Proof. induction l as [|x l IH]; cbn [lsum length]; [cbn; ring|rewrite IH, S_INR; ring]. Qed.
Lemma lsum_Rsum {A} (f : A -> nat -> R) k l : lsum (fun x => Rsum k (f x)) l = Rsum k (fun j => lsum (fun x => f x j) l).
Proof. induction k as [|k IH]; cbn [Rsum]; [rewrite lsum_const; ring|]. rewrite lsum_plus, IH. reflexivity. Qed.
Lemma mean_affine (l : list (coords R)) d (A : nat -> nat -> R) i : l <> [] ->
  lsum (fun c => d i + Rsum n (fun j => co c j * A j i)) l / INR (length l) = d i + Rsum n (fun j => mean_coord l j * A j i).
Proof.
  intros N. assert (P : INR (length l) <> 0). { destruct l; [congruence|]. cbn [length]. apply not_0_INR. lia. }
  rewrite lsum_plus, lsum_const, lsum_Rsum.
  rewrite (Rsum_ext n (fun j => mean_coord l j * A j i) (fun j => / INR (length l) * lsum (fun x => co x j * A j i) l)).
  2: { intros j _. unfold mean_coord. rewrite (lsum_ext (fun x => co x j * A j i) (fun x => A j i * co x j)) by (intros; ring). rewrite (lsum_scal (fun x : coords R => co x j)). unfold Rdiv. ring. }
  rewrite Rsum_scal_l. field. auto.
Qed.
Lemma mean_moved b f l l' i : rigid n f -> (i < n)%nat -> l <> [] -> list_moved n b f l l' -> mean_coord l' i = f (mean_coord l) i.
Proof.
  intros (A & d & O & F) Hi N M. rewrite (F _ i Hi). rewrite <- (mean_affine l d A i N). unfold mean_coord. rewrite (moved_length _ _ _ _ M). f_equal.
  clear N. induction M as [|x x' l l' [X _] M IH]; cbn; auto. rewrite IH, (X i Hi), (F _ i Hi). reflexivity.
Qed.
Lemma center_moved b f l l' : rigid n f -> l <> [] -> list_moved n b f l l' -> pteq n (co (poly_center n l')) (f (co (poly_center n l))).
Proof.
  intros Rf N M i Hi. unfold poly_center. assert (N' : l' <> []). { intros ->. apply moved_length in M. destruct l; cbn in *; congruence. }
  destruct (bary_spec eps n l') as (_ & _ & C'). destruct (bary_spec eps n l) as (_ & _ & C). destruct (C' N') as [_ ->]; auto.
  rewrite (mean_moved b f l l' i) by auto. apply (rigid_ext n f _ _ Rf); auto. intros j Hj. symmetry. now apply C.
Qed.
End Lists.

Section Planes.
Context (eps : Epsilon).
Variable n : nat.
(** What a plane corner is in space. *)
Definition plane_at (o : porient R) (p : pt) : pt := fun i =>
  co (porigin o) i + (if valid (pax0 o) then co (pax0 o) i * p 0%nat else 0) + (if valid (pax1 o) then co (pax1 o) i * p 1%nat else 0).
Definition plane_ok (o : porient R) (p : pt) : Prop :=
  valid (porigin o) = true /\ (valid (pax0 o) = false -> p 0%nat = 0) /\ (valid (pax1 o) = false -> p 1%nat = 0).
Lemma convert_def o p : plane_ok o (co p) -> exists c, orient_convert n o p = Ret c /\ valid c = valid p /\ pteq n (co c) (plane_at o (co p)).
Proof.
  intros (V & A & B). unfold orient_convert. rewrite V. cbn [oassert]. unfold plane_at. change (at_ p 0) with (co p 0). change (at_ p 1) with (co p 1).
  assert (Z : forall x, x = 0 -> neqb x n0 = true) by (intros x ->; unfold n0; cbn [neqb nofZ Rnum]; apply Req_bool_true; reflexivity).
  destruct (valid (pax0 o)); [|rewrite (Z _ (A eq_refl))]; cbn [oassert obind]; (destruct (valid (pax1 o)); [|rewrite (Z _ (B eq_refl))]); cbn [oassert obind]; eexists; (split; [reflexivity|split; [reflexivity|]]); intros i Hi; unfold set_valid, co at 1; cbn [el];
  repeat match goal with |- context [nth i (el ?x) 0] => change (nth i (el x) 0) with (co x i) end; rewrite ?add_co by auto; unfold vec_scale; rewrite ?co_tab by auto; cbn [nmul Rnum]; repeat match goal with |- context [at_ ?x i] => change (at_ x i) with (co x i) end; ring.
Qed.
Lemma convert_inv o p c : orient_convert n o p = Ret c -> plane_ok o (co p) /\ valid c = valid p /\ pteq n (co c) (plane_at o (co p)).
Proof.
  intros E. assert (K : plane_ok o (co p)).
  { unfold orient_convert in E. destruct (valid (porigin o)) eqn:V; [|discriminate]. cbn [oassert] in E. split; auto.
    split; intros W; rewrite W in E.
    - destruct (neqb (at_ p 0) n0) eqn:Q; [|discriminate]. cbn [neqb Rnum] in Q. apply Reqb_iff in Q. exact Q.
    - destruct (if valid (pax0 o) then _ else _) as [a| | |]; try discriminate. cbn [obind] in E.
      destruct (neqb (at_ p 1) n0) eqn:Q; [|discriminate]. cbn [neqb Rnum] in Q. apply Reqb_iff in Q. exact Q. }
  split; auto. destruct (convert_def o p K) as (c' & E' & V & P). rewrite E in E'. injection E' as <-. auto.
Qed.

(** A plane moved by a rigid motion. *)
Definition plane_moved (f : pt -> pt) (o o' : porient R) : Prop :=
  valid (porigin o') = valid (porigin o) /\ valid (pax0 o') = valid (pax0 o) /\ valid (pax1 o') = valid (pax1 o) /\
  forall p, plane_ok o p -> pteq n (plane_at o' p) (f (plane_at o p)).
Lemma convert_moved f o o' p c : plane_moved f o o' -> rigid n f -> orient_convert n o p = Ret c ->
  exists c', orient_convert n o' p = Ret c' /\ pteq n (co c') (f (co c)) /\ valid c' = valid c.
Proof.
  intros (V & V0 & V1 & M) Rf E. destruct (convert_inv o p c E) as (K & Vc & P).
  destruct (convert_def o' p) as (c' & E' & Vc' & P'). { destruct K as (K1 & K2 & K3). split; [now rewrite V|]. now rewrite V0, V1. }
  exists c'. split; auto. split; [|now rewrite Vc', Vc]. eapply pteq_trans; [exact P'|]. eapply pteq_trans; [apply M, K|]. apply rigid_ext; auto. now apply pteq_sym.
Qed.
Lemma plane_image f (p : polygon R) o' : rigid n f -> plane_moved f (pplane p) o' -> pg_moved eps n f p (mkP o' (pcorners p)).
Proof.
  intros Rf M. split; [reflexivity|]. intros i c. unfold pg_corner. cbn [pcorners pplane]. destruct (poly_corner (pcorners p) i) as [x| | |]; try discriminate. cbn [obind].
  intros E. eapply convert_moved; eauto.
Qed.
Lemma plane_linear f A d o o' : (forall x, pteq n (f x) (fun i => d i + Rsum n (fun j => x j * A j i))) ->
  valid (porigin o') = valid (porigin o) -> valid (pax0 o') = valid (pax0 o) -> valid (pax1 o') = valid (pax1 o) ->
  pteq n (co (porigin o')) (f (co (porigin o))) ->
  (valid (pax0 o) = true -> forall i, (i < n)%nat -> co (pax0 o') i = Rsum n (fun j => co (pax0 o) j * A j i)) ->
  (valid (pax1 o) = true -> forall i, (i < n)%nat -> co (pax1 o') i = Rsum n (fun j => co (pax1 o) j * A j i)) -> plane_moved f o o'.
Proof.
  intros F V V0 V1 Eo E0 E1. split; auto. split; auto. split; auto. intros p _ i Hi. rewrite (F _ i Hi). unfold plane_at. rewrite V0, V1, (Eo i Hi), (F _ i Hi).
  destruct (valid (pax0 o)); [rewrite (E0 eq_refl i Hi)|]; (destruct (valid (pax1 o)); [rewrite (E1 eq_refl i Hi)|]).
  - rewrite (Rsum_ext n (fun j => (co (porigin o) j + co (pax0 o) j * p 0%nat + co (pax1 o) j * p 1%nat) * A j i) (fun j => co (porigin o) j * A j i + p 0%nat * (co (pax0 o) j * A j i) + p 1%nat * (co (pax1 o) j * A j i))) by (intros; ring).
    rewrite !Rsum_plus, !Rsum_scal_l. ring.
  - rewrite (Rsum_ext n (fun j => (co (porigin o) j + co (pax0 o) j * p 0%nat + 0) * A j i) (fun j => co (porigin o) j * A j i + p 0%nat * (co (pax0 o) j * A j i))) by (intros; ring).
    rewrite !Rsum_plus, !Rsum_scal_l. ring.
  - rewrite (Rsum_ext n (fun j => (co (porigin o) j + 0 + co (pax1 o) j * p 1%nat) * A j i) (fun j => co (porigin o) j * A j i + p 1%nat * (co (pax1 o) j * A j i))) by (intros; ring).
    rewrite !Rsum_plus, !Rsum_scal_l. ring.
  - rewrite (Rsum_ext n (fun j => (co (porigin o) j + 0 + 0) * A j i) (fun j => co (porigin o) j * A j i)) by (intros; ring). ring.
Qed.
(** The centre of a polygon in space is the mean of its corners. *)
Lemma center_ok (p : polygon R) : (0 < pg_num p)%nat -> (forall i, (i < pg_num p)%nat -> exists c, pg_corner n p i = Ret c) ->
  exists c, pg_center n p = Ret c /\ pteq n (co c) (plane_at (pplane p) (mean_coord (pcorners p))).
Proof.
  intros N C. unfold pg_num in *. set (l := pcorners p) in *. assert (Nl : l <> []) by (intros E; rewrite E in N; cbn in N; lia).
  assert (K : forall c, In c l -> plane_ok (pplane p) (co c)).
  { intros c I. destruct (In_nth_error _ _ I) as [i E]. assert (L : (i < length l)%nat) by (apply nth_error_Some; congruence). destruct (C i L) as [x X].
    unfold pg_corner, poly_corner, oget in X. fold l in X. rewrite E in X. cbn [obind] in X. apply (convert_inv _ _ _ X). }
  assert (M : plane_ok (pplane p) (mean_coord l)).
  { destruct (K (hd (coords_default 0) l)) as (V & _); [destruct l; [congruence|now left]|]. split; auto. unfold mean_coord.
    split; intros W; rewrite (lsum_ext _ (fun _ => 0)); try (rewrite lsum_const; unfold Rdiv; ring); intros c I; now apply K. }
  destruct (bary_spec eps 2 l) as (_ & _ & B). destruct (B Nl) as [_ B2].
  unfold pg_center, poly_center. fold l. destruct (convert_def (pplane p) (barycenter 2 l)) as (c & E & _ & P).
  { destruct M as (M1 & M2 & M3). split; auto. rewrite !B2 by lia. auto. }
  exists c. split; auto. eapply pteq_trans; [exact P|]. intros i Hi. unfold plane_at. rewrite !B2 by lia. reflexivity.
Qed.
Lemma center_mean (p : polygon R) (cs : list (coords R)) : (0 < pg_num p)%nat -> length cs = pg_num p -> (forall i, (i < pg_num p)%nat -> pg_corner n p i = Ret (nth i cs (coords_default n))) ->
  exists c, pg_center n p = Ret c /\ forall i, (i < n)%nat -> co c i = mean_coord cs i.
Proof.
  intros N L C. destruct (center_ok p N) as (c & E & P). { intros i Hi. eauto. }
  exists c. split; auto. intros i Hi. rewrite (P i Hi). unfold pg_num in *.
  assert (X : lsum (fun x => co x i) cs = lsum (fun x => plane_at (pplane p) (co x) i) (pcorners p)).
  { clear N E P c. unfold pg_corner, poly_corner, oget in C. revert cs L C. generalize (pplane p) as o. induction (pcorners p) as [|x l IH]; intros o [|y cs] L C; cbn [length] in L; try discriminate; [reflexivity|].
    cbn [lsum]. injection L as L. rewrite (IH o cs L).
    - f_equal. pose proof (C 0%nat ltac:(cbn; lia)) as C0. cbn in C0. apply convert_inv in C0. destruct C0 as (_ & _ & C0). apply (C0 i Hi).
    - intros k Hk. apply (C (S k)). cbn. lia. }
  assert (Q : INR (length (pcorners p)) <> 0) by (apply not_0_INR; lia).
  change (mean_coord cs i) with (lsum (fun x : coords R => co x i) cs / INR (length cs)). rewrite X, L. unfold plane_at. rewrite !lsum_plus, lsum_const. unfold mean_coord.
  destruct (valid (pax0 (pplane p))), (valid (pax1 (pplane p))); rewrite ?lsum_scal, ?lsum_const; unfold point in *; field; auto.
Qed.
End Planes.
