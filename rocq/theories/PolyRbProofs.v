(** Polygons in the plane against rotated boxes: everything is carried into the frame of the box. *)
From Coq Require Import Reals List Bool Lra Lia Psatz Permutation Classical.
From Flocq Require Import Core.Raux.
From Verif Require Import Base Scalar ConstModel VecModel RotModel QuatModel VecSpec RSpec RotSpec RLib MatLib VecProofs VecProofs4 ConstProofs ShapeSpec ShapeModel IntersectModel ShapeProofs ShapeProofs2 ShapeProofs3 RotProofs2 RotProofs3 RbProofs RbProofs2 PolyModel PolyIntersectModel EvenOddSpec EvenOddProofs RegionSpec RegionProofs PolyShapeProofs PolyBoxProofs PolyBoxProofs2.
Import ListNotations.
Open Scope R_scope.
#[local] Existing Instance Rnum | 0.
#[local] Existing Instance eps0.

(** * Affine maps of the plane *)
Section Affine.
Variable g L : pt -> pt.
Variable G : coords R -> coords R.
Hypothesis g_ext : forall x y, pteq 2 x y -> pteq 2 (g x) (g y).
Hypothesis g_inj : forall x y, pteq 2 (g x) (g y) -> pteq 2 x y.
Hypothesis g_ray : forall p d t, pteq 2 (g (fun k => p k + t * d k)) (fun k => g p k + t * L d k).
Hypothesis g_seg : forall a b s, pteq 2 (g (fun k => (1 - s) * a k + s * b k)) (fun k => (1 - s) * g a k + s * g b k).
Hypothesis L_onto : forall d', exists d, pteq 2 d' (L d).
Hypothesis L_zero : forall d, pteq 2 d (fun _ => 0) -> pteq 2 (L d) (fun _ => 0).
Hypothesis G_co : forall c, pteq 2 (co (G c)) (g (co c)).
Let tr (x y z : pt) : pteq 2 x y -> pteq 2 y z -> pteq 2 x z.
Proof. intros A B i Hi. now rewrite (A i Hi), (B i Hi). Qed.

Lemma side_affine a b x : on_side (co (G a)) (co (G b)) (g x) <-> on_side (co a) (co b) x.
Proof.
  split; intros (s & S & E); exists s; split; auto.
  - apply g_inj. apply (tr _ _ _ E). intros i Hi. rewrite (g_seg (co a) (co b) s i Hi). now rewrite (G_co a i Hi), (G_co b i Hi).
  - apply (tr _ (g (fun k => (1 - s) * co a k + s * co b k))); [now apply g_ext|]. intros i Hi. rewrite (g_seg (co a) (co b) s i Hi). now rewrite (G_co a i Hi), (G_co b i Hi).
Qed.
Lemma side_image a b y : on_side (co (G a)) (co (G b)) y -> exists x, pteq 2 y (g x) /\ on_side (co a) (co b) x.
Proof.
  intros (s & S & E). exists (fun k => (1 - s) * co a k + s * co b k). split; [|exists s; split; auto; apply pteq_refl].
  intros i Hi. rewrite (g_seg (co a) (co b) s i Hi), (E i Hi). now rewrite (G_co a i Hi), (G_co b i Hi).
Qed.
Lemma ray_affine p d d' y : pteq 2 d' (L d) -> (on_ray (g p) d' (g y) <-> on_ray p d y).
Proof.
  intros D. split; intros (t & T & E); exists t; split; auto.
  - apply g_inj. apply (tr _ _ _ E). intros i Hi. now rewrite (g_ray p d t i Hi), (D i Hi).
  - apply (tr _ (g (fun k => p k + t * d k))); [now apply g_ext|]. intros i Hi. now rewrite (g_ray p d t i Hi), (D i Hi).
Qed.
Lemma ray_eq p d x y : pteq 2 x y -> on_ray p d x -> on_ray p d y.
Proof. intros E (t & T & Q). exists t. split; auto. apply (tr _ x); auto. now apply pteq_sym. Qed.
Lemma side_eq a b x y : pteq 2 x y -> on_side a b x -> on_side a b y.
Proof. intros E (t & T & Q). exists t. split; auto. apply (tr _ x); auto. now apply pteq_sym. Qed.
Lemma meets_affine p d d' a b : pteq 2 d' (L d) -> (meets_ray (g p) d' (G a, G b) <-> meets_ray p d (a, b)).
Proof.
  intros D. split; intros (y & Ry & Sy); cbn [fst snd] in *.
  - destruct (side_image a b y Sy) as (x & E & Sx). exists x. split; auto. apply (ray_affine p d d' x D). now apply (ray_eq _ _ y).
  - exists (g y). split; [now apply (ray_affine p d d' y D)|now apply side_affine].
Qed.
Definition GG (e : coords R * coords R) := (G (fst e), G (snd e)).
Lemma combine_map_ {A B C D} (f : A -> C) (h : B -> D) (u : list A) : forall v, combine (map f u) (map h v) = map (fun e => (f (fst e), h (snd e))) (combine u v).
Proof. induction u as [|x u IH]; intros [|y v]; cbn; auto. now rewrite IH. Qed.
Lemma sides_map l : sides (map G l) = map GG (sides l).
Proof. destruct l as [|c l]; [reflexivity|]. unfold sides. cbn [map]. change [G c] with (map G [c]). rewrite <- map_app. change (G c :: map G l) with (map G (c :: l)). apply combine_map_. Qed.
Lemma boundary_affine l x : on_boundary (map G l) (g x) <-> on_boundary l x.
Proof.
  split.
  - intros (a & b & I & S). rewrite sides_map in I. apply in_map_iff in I. destruct I as ((u & v) & E & I). injection E as <- <-. exists u, v. split; auto. now apply side_affine.
  - intros (a & b & I & S). exists (G a), (G b). split; [|now apply side_affine]. rewrite sides_map. apply in_map_iff. exists (a, b). auto.
Qed.
Lemma counts_map_ {A B} (f : A -> B) (P : B -> Prop) (Q : A -> Prop) l : (forall x, P (f x) <-> Q x) -> forall n, counts P (map f l) n -> counts Q l n.
Proof.
  intros H. induction l as [|x l IH]; intros n C; cbn [map] in C; inversion C; subst; [constructor|constructor; [now apply H|now apply IH]|]. apply counts_no; [now rewrite <- H|now apply IH].
Qed.
Lemma even_odd_affine l x b : even_odd l x b -> even_odd (map G l) (g x) b.
Proof.
  intros E d' n (D0 & Cl) C. destruct (L_onto d') as (d & D). apply (E d n).
  - split. { intros Z. apply D0. apply (tr _ (L d)); auto. }
    intros c I Ray. apply (Cl (G c)); [now apply in_map|]. apply (ray_eq _ _ (g (co c))); [apply pteq_sym, G_co|]. now apply (ray_affine x d d' (co c) D).
  - rewrite sides_map in C. revert C. apply counts_map_. intros [a c]. apply (meets_affine x d d' a c D).
Qed.
Lemma interior_affine l x : interior (map G l) (g x) <-> interior l x.
Proof.
  split; intros [N E].
  - assert (N' : ~ on_boundary l x) by (intros B; apply N; now apply boundary_affine). split; auto.
    pose proof (even_odd_affine l x _ (parity_even_odd l x right N' right_ne)) as F. apply (even_odd_parity _ _ _ N) in E. apply (even_odd_parity _ _ _ N) in F. rewrite E, <- F. now apply parity_even_odd; [|apply right_ne].
  - split; [intros B; apply N; now apply boundary_affine|now apply even_odd_affine].
Qed.
Lemma region_affine l x : region (map G l) (g x) <-> region l x.
Proof. unfold region. now rewrite boundary_affine, interior_affine. Qed.
End Affine.

(** * The frame of a rotated box *)
Section Frame.
Variable r : rotbox R.
Hypothesis O : orthogonal 2 (ent (orient r)).
Notation fr := (frame 2 r).
Definition lin (d : pt) : pt := fun k => ent (orient r) k 0 * d 0%nat + ent (orient r) k 1 * d 1%nat.
Definition G (p : coords R) : coords R := point_rotate 2 p (rot_inverse 2 (orient r)) (corner0 r).
Lemma frame_2 x k : fr x k = co (corner0 r) k + (ent (orient r) k 0 * (x 0%nat - co (corner0 r) 0) + ent (orient r) k 1 * (x 1%nat - co (corner0 r) 1)).
Proof. unfold frame, edge, mapply. cbn [Rsum]. ring. Qed.
Lemma fr_ray p d t : pteq 2 (fr (fun k => p k + t * d k)) (fun k => fr p k + t * lin d k).
Proof. intros i Hi. rewrite !frame_2. unfold lin. ring. Qed.
Lemma fr_seg a b s : pteq 2 (fr (fun k => (1 - s) * a k + s * b k)) (fun k => (1 - s) * fr a k + s * fr b k).
Proof. intros i Hi. rewrite !frame_2. ring. Qed.
Lemma fr_ext x y : pteq 2 x y -> pteq 2 (fr x) (fr y).
Proof. apply frame_ext. Qed.
Lemma fr_inj x y : pteq 2 (fr x) (fr y) -> pteq 2 x y.
Proof.
  intros E i Hi. rewrite <- (unframe_frame 2 r O x i Hi), <- (unframe_frame 2 r O y i Hi). unfold unframe. apply unedge_ext; auto. intros j Hj. now rewrite (E j Hj).
Qed.
Lemma lin_onto d' : exists d, pteq 2 d' (lin d).
Proof.
  exists (mapply 2 (mtr (ent (orient r))) d'). intros i Hi. pose proof (mapply_tr_l 2 r O d' i Hi) as E. unfold lin. rewrite <- E. unfold mapply at 1. cbn [Rsum]. ring.
Qed.
Lemma lin_zero d : pteq 2 d (fun _ => 0) -> pteq 2 (lin d) (fun _ => 0).
Proof. intros E i Hi. unfold lin. rewrite (E 0%nat), (E 1%nat) by lia. ring. Qed.
Lemma G_fr c : pteq 2 (co (G c)) (fr (co c)).
Proof. intros i Hi. unfold G. rewrite (point_rotate_co eps0 2) by auto. now apply (turned_frame eps0 2 r). Qed.
Lemma rb_boundary l x : on_boundary (map G l) (fr x) <-> on_boundary l x.
Proof. apply boundary_affine; [apply fr_ext|apply fr_inj|apply fr_seg|apply G_fr]. Qed.
Lemma rb_interior l x : interior (map G l) (fr x) <-> interior l x.
Proof. apply (interior_affine fr lin); [apply fr_ext|apply fr_inj|apply fr_ray|apply fr_seg|apply lin_onto|apply lin_zero|apply G_fr]. Qed.
Lemma rb_region l x : region (map G l) (fr x) <-> region l x.
Proof. apply (region_affine fr lin); [apply fr_ext|apply fr_inj|apply fr_ray|apply fr_seg|apply lin_onto|apply lin_zero|apply G_fr]. Qed.
(** The box in its own frame *)
Definition own : axisbox R := mkB (rb_low2 r) (rb_high2 r).
Lemma own_low k : (k < 2)%nat -> co (low own) k = co (corner0 r) k + Rmin 0 (co (rsize r) k).
Proof.
  intros Hk. unfold own, rb_low2. cbn [low]. rewrite co_tab by auto. change (at_ ?v ?k) with (co v k). cbn [nltb nadd Rnum]. unfold n0. cbn [nofZ Rnum]. unfold Rmin. destruct (Rlt_bool_spec (IZR 0) (co (rsize r) k)), (Rle_dec 0 (co (rsize r) k)); lra.
Qed.
Lemma own_high k : (k < 2)%nat -> co (high own) k = co (corner0 r) k + Rmax 0 (co (rsize r) k).
Proof.
  intros Hk. unfold own, rb_high2. cbn [high]. rewrite co_tab by auto. change (at_ ?v ?k) with (co v k). cbn [nltb nadd Rnum]. unfold n0. cbn [nofZ Rnum]. unfold Rmax. destruct (Rlt_bool_spec (IZR 0) (co (rsize r) k)), (Rle_dec 0 (co (rsize r) k)); lra.
Qed.
Lemma own_ordered : box_ordered 2 own.
Proof. intros i Hi. rewrite own_low, own_high by auto. pose proof (Rmin_l 0 (co (rsize r) i)). pose proof (Rmax_l 0 (co (rsize r) i)). lra. Qed.
Lemma own_thick : rb_thick 2 r -> box_thick 2 own.
Proof. intros T i Hi. specialize (T i Hi). rewrite own_low, own_high by auto. unfold Rmin, Rmax. destruct (Rle_dec 0 (co (rsize r) i)); lra. Qed.
Lemma own_in x : in_box 2 own (fr x) <-> in_rotbox 2 r x.
Proof.
  rewrite (in_edge 2 r O). unfold in_box. split; intros H k Hk; specialize (H k Hk); rewrite own_low, own_high in * by auto; unfold frame in *; lra.
Qed.
Lemma own_in_open x : rb_thick 2 r -> (in_box_open 2 own (fr x) <-> in_rotbox_open 2 r x).
Proof.
  intros T. rewrite (in_edge_open 2 r O x T). unfold in_box_open. split; intros H k Hk; specialize (H k Hk); rewrite own_low, own_high in * by auto; unfold frame in *; lra.
Qed.
Lemma fr_onto y : exists x, pteq 2 y (fr x).
Proof. exists (unframe 2 r y). apply pteq_sym, (frame_unframe 2 r O). Qed.
End Frame.

(** * Loops over alternating segments *)
Lemma pairs_rel {T} `{Num T} (l : list (coords T)) : Forall2 (fun e f => e = f \/ swap e = f) (chain_pairs l) (edges l).
Proof.
  unfold chain_pairs. pose proof (chain_from_sides l (last l (coords_default 2)) (coords_default 2) true) as F. change (chain_from (last l (coords_default 2)) (coords_default 2) true l) with (chain l) in F. change (edges_from (if true then last l (coords_default 2) else coords_default 2) l) with (edges l) in F.
  induction F; cbn [map]; constructor; auto.
Qed.
Lemma pairs_cuts (l : list (coords R)) b : (exists e, In e (chain_pairs l) /\ cuts b e) <-> exists e, In e (sides l) /\ cuts b e.
Proof.
  rewrite <- edges_cuts. split; intros (e & I & C).
  - destruct (Forall2_l _ _ _ _ (pairs_rel l) I) as (f & If & Q). exists f. split; auto. destruct Q as [<-|<-]; auto. now apply cuts_swap.
  - destruct (Forall2_r _ _ _ _ (pairs_rel l) I) as (f & If & Q). exists f. split; auto. destruct Q as [->|<-]; auto. now apply cuts_swap.
Qed.
Lemma pairs_par (l : list (coords R)) p : par (passes p) (chain_pairs l) = parity (co p) right l.
Proof.
  rewrite <- edges_par. pose proof (pairs_rel l) as F. induction F as [|e f u v Q _ IH]; [reflexivity|]. unfold par in *. cbn [fold_right]. rewrite IH. f_equal. destruct Q as [->|<-]; auto. symmetry. apply (passes_swap eps0).
Qed.
Lemma pairs_sides (l : list (coords R)) e : In e (chain_pairs l) -> In e (sides l) \/ In (swap e) (sides l).
Proof.
  intros I. destruct (Forall2_l _ _ _ _ (pairs_rel l) I) as (f & If & Q). apply edge_side in If. destruct Q as [<-|<-]; auto. left. now destruct e.
Qed.
Lemma frame_map r l : rb_frame2 r l = map (G r) l.
Proof. reflexivity. Qed.
Lemma same_as_box l r : i_pg2_rb l r false = i_pg2_box (map (G r) l) (own r) false.
Proof.
  unfold i_pg2_rb, i_pg2_box. destruct l as [|c l']; [reflexivity|]. rewrite frame_map. set (m := map (G r) (c :: l')). change (match m with [] => Undef | _ => Ret (pg2_box_loop (low (own r)) (high (own r)) false (edges m) false) end) with (Ret (pg2_box_loop (low (own r)) (high (own r)) false (edges m) false)).
  f_equal. change (rb_low2 r) with (low (own r)). change (rb_high2 r) with (high (own r)). unfold point in *.
  destruct (classic (exists e, In e (sides m) /\ cuts (own r) e)) as [K|K].
  - rewrite (loop_cut (own r) (chain_pairs m) (own_ordered r)) by (now apply pairs_cuts). now rewrite (loop_cut (own r) (edges m) (own_ordered r)) by (now apply edges_cuts).
  - rewrite (loop_no_cut (own r) (chain_pairs m) (own_ordered r)) by (intros e I C; apply K, pairs_cuts; eauto). rewrite (loop_no_cut (own r) (edges m) (own_ordered r)) by (intros e I C; apply K, edges_cuts; eauto). now rewrite pairs_par, edges_par.
Qed.
Lemma same_as_box_c l r : c_pg2_rb l r true = c_pg2_box (map (G r) l) (own r) true.
Proof.
  unfold c_pg2_rb, c_pg2_box. destruct l as [|c l']; [reflexivity|]. rewrite frame_map. set (m := map (G r) (c :: l')). change (match m with [] => Undef | _ => Ret (pg2_box_loop_c (low (own r)) (high (own r)) true (edges m) false) end) with (Ret (pg2_box_loop_c (low (own r)) (high (own r)) true (edges m) false)).
  f_equal. change (rb_low2 r) with (low (own r)). change (rb_high2 r) with (high (own r)). unfold point in *.
  destruct (classic (exists e, In e (sides m) /\ cuts (own r) e)) as [K|K].
  - rewrite (loop_c_cut (own r) (chain_pairs m) (own_ordered r)) by (now apply pairs_cuts). now rewrite (loop_c_cut (own r) (edges m) (own_ordered r)) by (now apply edges_cuts).
  - rewrite (loop_c_no_cut (own r) (chain_pairs m) (own_ordered r)) by (intros e I C; apply K, pairs_cuts; eauto). rewrite (loop_c_no_cut (own r) (edges m) (own_ordered r)) by (intros e I C; apply K, edges_cuts; eauto). now rewrite pairs_par, edges_par.
Qed.
Lemma map_ne {A B} (f : A -> B) l : l <> [] -> map f l <> [].
Proof. destruct l; easy. Qed.

Section Results.
Variable r : rotbox R.
Hypothesis O : orthogonal 2 (ent (orient r)).
Lemma pg2_rb_sound l : l <> [] -> i_pg2_rb l r false = Ret true -> meet (region l) (in_rotbox 2 r).
Proof.
  intros Nn E. rewrite same_as_box in E. destruct (pg2_box_sound (map (G r) l) (own r) (map_ne (G r) l Nn) (own_ordered r) E) as (y & Ry & By).
  destruct (fr_onto r O y) as (x & X). exists x. split; [apply (rb_region r O); now apply (region_eq _ y)|]. apply (own_in r O). intros i Hi. rewrite <- (X i Hi). auto.
Qed.
Lemma pg2_rb_complete l : l <> [] -> rb_thick 2 r -> meet (region l) (in_rotbox_open 2 r) -> (exists c, In c l /\ ~ in_rotbox 2 r (co c)) -> i_pg2_rb l r false = Ret true.
Proof.
  intros Nn Th (x & X & B) (c & I & Out). rewrite same_as_box. apply pg2_box_complete; [now apply map_ne|now apply own_thick| |].
  - exists (frame 2 r x). split; [now apply (rb_region r O)|now apply (own_in_open r O)].
  - exists (G r c). split; [now apply in_map|]. intros K. apply Out, (own_in r O). intros i Hi. rewrite <- (G_fr r c i Hi). auto.
Qed.
Lemma pg2_has_rb_sound l : l <> [] -> rb_thick 2 r -> c_pg2_rb l r true = Ret true -> incl (in_rotbox 2 r) (region l) /\ incl (in_rotbox_open 2 r) (interior l).
Proof.
  intros Nn Th E. rewrite same_as_box_c in E. destruct (pg2_has_box_sound _ _ (map_ne (G r) l Nn) (own_thick r Th) E) as [A B]. split; intros x X.
  - apply (rb_region r O). apply A. now apply (own_in r O).
  - apply (rb_interior r O). apply B. now apply (own_in_open r O).
Qed.
Lemma pg2_has_rb_complete l : l <> [] -> incl (in_rotbox 2 r) (interior l) -> c_pg2_rb l r true = Ret true.
Proof.
  intros Nn I. rewrite same_as_box_c. apply pg2_has_box_complete; [now apply map_ne|apply own_ordered|]. intros y Y. destruct (fr_onto r O y) as (x & X).
  apply (interior_eq _ (frame 2 r x)); [now apply pteq_sym|]. apply (rb_interior r O), I, (own_in r O). intros i Hi. rewrite <- (X i Hi). auto.
Qed.
(** The corners of the rotated box *)
Definition rb_corner_pt (x : pt) : Prop := exists s : pt, (forall k, (k < 2)%nat -> s k = 0 \/ s k = 1) /\ pteq 2 x (rb_at 2 r s).
Lemma has_rb_corners l : (forall x, rb_corner_pt x -> ~ on_boundary l x) -> c_pg2_rb l r false = c_pg2_rb l r true.
Proof.
  intros N. unfold c_pg2_rb. destruct l as [|c l']; [reflexivity|]. f_equal. rewrite frame_map. apply (loop_c_corners (map (G r) (c :: l')) (own r)); [|intros e; apply pairs_sides].
  intros y C B. destruct (fr_onto r O y) as (x & X). apply (N x).
  - exists (fun k => if Req_EM_T (frame 2 r x k) (co (corner0 r) k) then 0 else 1). split; [intros k Hk; destruct (Req_EM_T _ _); auto|].
    intros i Hi. unfold rb_at. rewrite (of_edge 2 r O x i Hi). f_equal. apply Rsum_ext. intros k Hk. specialize (C k Hk). rewrite (X k Hk), own_low, own_high in C by auto. unfold frame in *.
    destruct (Req_EM_T (co (corner0 r) k + edge 2 r x k) (co (corner0 r) k)) as [Z|Z]; [replace (edge 2 r x k) with 0 by lra; ring|].
    f_equal. unfold Rmin, Rmax in C. destruct (Rle_dec 0 (co (rsize r) k)); lra.
  - apply (rb_boundary r O). now apply (boundary_eq _ y).
Qed.
End Results.
