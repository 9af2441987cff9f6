(** Property theorems C15-C22, C37, C38 and C55 (vector.h, point.h and their
    implementation files). *)
From Coq Require Import Reals Lra Lia List Bool Psatz ZArith SpecFloat.
From Flocq Require Import Core.Zaux Core.Raux.
From Verif Require Import Base Scalar ConstModel ConstSpec VecModel RSpec RLib VecSpec VecProofs VecProofs2 VecProofs3 VecProofs4 VecProofs5.
Import ListNotations.
Open Scope R_scope.

(** ** C15 *)
Theorem C15_vector_space : forall (eps : Epsilon) n (a b c : coords R) k l, dims n a ->
  vec_add n a b = vec_add n b a /\
  vec_add n (vec_add n a b) c = vec_add n a (vec_add n b c) /\
  vec_add n a (vec_zero n) = a /\
  (valid a = true -> vec_add n a (vec_neg n a) = vec_zero n) /\
  vec_sub n a b = vec_add n a (vec_neg n b) /\
  vec_scale n (vec_add n a b) k = vec_add n (vec_scale n a k) (vec_scale n b k) /\
  vec_scale n a (k + l) = vec_add n (vec_scale n a k) (vec_scale n a l) /\
  vec_scale n (vec_scale n a k) l = vec_scale n a (k * l) /\
  vec_scale n a 1 = a /\ vec_div n a k = vec_scale n a (/ k).
Proof.
  exact (fun eps n a b c k l D => conj (add_comm eps n a b) (conj (add_assoc eps n a b c) (conj (add_zero eps n a D)
    (conj (add_neg eps n a) (conj (sub_add_neg eps n a b) (conj (scale_add_vec eps n a b k) (conj (scale_add_scalar eps n a k l)
    (conj (scale_scale eps n a k l) (conj (scale_one eps n a D) (div_scale eps n a k)))))))))).
Qed.
Print Assumptions C15_vector_space.

Theorem C15_affine_space : forall (eps : Epsilon) n (p q r v w : coords R),
  dims n q -> dims n v -> valid p = true -> valid q = true ->
  vec_add n p (vec_sub n q p) = q /\
  vec_sub n (vec_add n p v) p = v /\
  vec_add n (vec_add n p v) w = vec_add n p (vec_add n v w) /\
  vec_add n (vec_sub n p q) (vec_sub n q r) = vec_sub n p r.
Proof.
  exact (fun eps n p q r v w Dq Dv Vp Vq => conj (point_add_sub eps n p q Dq Vp) (conj (point_sub_add eps n p v Dv Vp)
    (conj (add_assoc eps n p v w) (point_chasles eps n p q r Vq)))).
Qed.
Print Assumptions C15_affine_space.

(** the coordinates of the results, so that the laws above are about the usual operations *)
Theorem C15_coordinates : forall (eps : Epsilon) n (a b : coords R) k i, (i < n)%nat ->
  co (vec_add n a b) i = co a i + co b i /\ co (vec_sub n a b) i = co a i - co b i /\
  co (vec_neg n a) i = - co a i /\ co (vec_scale n a k) i = co a i * k /\
  co (vec_div n a k) i = co a i / k /\ co (vec_zero n) i = 0.
Proof. exact vec_coordinates. Qed.
Print Assumptions C15_coordinates.

Example C15_example : dims 2 (mk2 1 2) /\ valid (mk2 1 2) = true /\
  vec_sub (H := Rnum 0) 2 (mk2 1 2) (mk2 0 5) = mk2 (1 - 0) (2 - 5).
Proof. repeat split. Qed.

(** ** C16 *)
Theorem C16_dot_symmetric : forall (eps : Epsilon) n (a b : coords R), dot n a b = dot n b a.
Proof. exact dot_comm. Qed.
Print Assumptions C16_dot_symmetric.

Theorem C16_dot_exact_or_zero : forall (eps : Epsilon) n (a b : coords R),
  dot n a b = inner n (co a) (co b) \/ dot n a b = 0.
Proof. exact dot_exact_or_zero. Qed.
Print Assumptions C16_dot_exact_or_zero.

Theorem C16_dot_error : forall (eps : Epsilon) n (a b : coords R) A B,
  (0 < n)%nat -> 0 <= (eps : R) -> dims n a -> dims n b -> bounded_by n a A -> bounded_by n b B ->
  Rabs (dot n a b - inner n (co a) (co b)) <= 2 * eps * Rmin A B.
Proof. exact dot_error. Qed.
Print Assumptions C16_dot_error.

Theorem C16_dot_without_clamp : forall n (a b c : coords R) k,
  @dot R (Rnum 0) n a b = inner n (co a) (co b) /\
  @dot R (Rnum 0) n (vec_add (H := Rnum 0) n a b) c = @dot R (Rnum 0) n a c + @dot R (Rnum 0) n b c /\
  @dot R (Rnum 0) n (vec_scale (H := Rnum 0) n a k) c = k * @dot R (Rnum 0) n a c.
Proof. exact dot_bilinear. Qed.
Print Assumptions C16_dot_without_clamp.

Theorem C16_cauchy_schwarz : forall (eps : Epsilon) n (a b : coords R),
  dot n a b * dot n a b <= sqr_mag n a * sqr_mag n b /\ sqr_mag n a = norm2 n (co a) /\ mag n a = norm n (co a).
Proof. exact (fun eps n a b => conj (dot_cauchy eps n a b) (conj (sqr_mag_norm2 eps n a) (mag_norm eps n a))). Qed.
Print Assumptions C16_cauchy_schwarz.

Example C16_example : bounded_by 2 (mk2 3 (-4)) 4 /\ @dot R (Rnum 0) 2 (mk2 3 (-4)) (mk2 1 2) = -5.
Proof.
  split.
  - intros [|[|i]] Hi; unfold co; simpl; try lia; unfold Rabs; destruct (Rcase_abs _); lra.
  - rewrite dot_inner. unfold inner, co. simpl. lra.
Qed.

(** ** C17: false for short vectors, true as soon as one coordinate reaches 2 epsilon *)
Theorem C17_dot_self_refuted : forall (eps : Epsilon) n, (0 < n)%nat -> 0 < (eps : R) ->
  exists v : coords R, dims n v /\ valid v = true /\ dot n v v = 0 /\ 0 < sqr_mag n v.
Proof.
  exact (fun eps n Hn He => ex_intro _ (axis_vec n (eps / 2))
    (conj (dims_tab n _ _) (conj eq_refl (dot_self_short eps n Hn He)))).
Qed.
Print Assumptions C17_dot_self_refuted.

Theorem C17_dot_self_partial : forall (eps : Epsilon) n (v : coords R) i,
  0 <= (eps : R) -> dims n v -> (i < n)%nat -> 2 * eps <= Rabs (co v i) -> dot n v v = sqr_mag n v.
Proof. exact dot_self_large. Qed.
Print Assumptions C17_dot_self_partial.

(** the same disagreement in the arithmetic the library uses *)
Theorem C17_dot_self_refuted_double : forall m : libm,
  let tiny := binary_normalize prec64 emax64 1 (-60) false in
  let v := mkC [tiny; tiny; tiny] true in
  dot (H := B64 m) 3 v v = S754_zero false /\ SFltb (S754_zero false) (sqr_mag (H := B64 m) 3 v) = true.
Proof. exact dot_self_double. Qed.
Print Assumptions C17_dot_self_refuted_double.

Example C17_example : 2 * (1/100) <= Rabs (co (mk2 0 1) 1).
Proof. unfold co. simpl. rewrite Rabs_pos_eq; lra. Qed.

(** ** C18 *)
Theorem C18_cross_antisymmetric : forall (eps : Epsilon) (a b : coords R), cross3 a b = vec_neg 3 (cross3 b a).
Proof. exact cross3_anti. Qed.
Print Assumptions C18_cross_antisymmetric.

Theorem C18_cross_error : forall (eps : Epsilon) (a b : coords R) A B i,
  0 <= (eps : R) -> dims 3 a -> dims 3 b -> bounded_by 3 a A -> bounded_by 3 b B -> (i < 3)%nat ->
  Rabs (co (cross3 a b) i - cross_coord (co a) (co b) i) <= 2 * eps * Rmin A B.
Proof. exact cross3_error. Qed.
Print Assumptions C18_cross_error.

Theorem C18_cross_bilinear : forall (a b c : coords R) k,
  (forall i, (i < 3)%nat -> co (@cross3 R (Rnum 0) a b) i = cross_coord (co a) (co b) i) /\
  @cross3 R (Rnum 0) (vec_add (H := Rnum 0) 3 a b) c = vec_add (H := Rnum 0) 3 (@cross3 R (Rnum 0) a c) (@cross3 R (Rnum 0) b c) /\
  @cross3 R (Rnum 0) (vec_scale (H := Rnum 0) 3 a k) c = vec_scale (H := Rnum 0) 3 (@cross3 R (Rnum 0) a c) k.
Proof. exact (fun a b c k => conj (fun i => cross3_co0 a b i) (conj (cross3_add_l a b c) (cross3_scale_l a c k))). Qed.
Print Assumptions C18_cross_bilinear.

Theorem C18_cross_orthogonal : forall (a b : coords R),
  inner 3 (co a) (co (@cross3 R (Rnum 0) a b)) = 0 /\ inner 3 (co b) (co (@cross3 R (Rnum 0) a b)) = 0.
Proof. exact (fun a b => conj (cross3_orth_l a b) (cross3_orth_r a b)). Qed.
Print Assumptions C18_cross_orthogonal.

Theorem C18_lagrange : forall (a b : coords R),
  norm2 3 (co (@cross3 R (Rnum 0) a b)) + inner 3 (co a) (co b) * inner 3 (co a) (co b) =
  norm2 3 (co a) * norm2 3 (co b).
Proof. exact cross3_lagrange. Qed.
Print Assumptions C18_lagrange.

Example C18_example : co (@cross3 R (Rnum 0) (mk3 1 0 0) (mk3 0 1 0)) 2 = 1.
Proof. rewrite cross3_co0 by lia. unfold co. simpl. lra. Qed.

(** ** C19: Cross in two dimensions is never negative *)
Theorem C19_cross2_refuted : forall (eps : Epsilon), 0 <= (eps : R) < 1/4 ->
  exists a b : coords R, dims 2 a /\ dims 2 b /\ cross2 a b = 1 /\ cross2 b a = 0.
Proof. exact cross2_not_anti. Qed.
Print Assumptions C19_cross2_refuted.

Theorem C19_cross2_partial : forall (eps : Epsilon) (a b : coords R) A B,
  0 <= (eps : R) -> dims 2 a -> dims 2 b -> bounded_by 2 a A -> bounded_by 2 b B ->
  0 <= cross2 a b /\
  Rabs (cross2 a b - Rmax 0 (co a 0 * co b 1 - co a 1 * co b 0)) <= 2 * eps * Rmin A B.
Proof. exact (fun eps a b A B He Da Db BA BB => conj (cross2_nonneg eps a b He) (cross2_error eps a b A B He Da Db BA BB)). Qed.
Print Assumptions C19_cross2_partial.

Theorem C19_cross2_refuted_double : forall m : libm,
  let x := mkC [b64_ofZ 1; b64_ofZ 0] true in let y := mkC [b64_ofZ 0; b64_ofZ 1] true in
  cross2 (H := B64 m) x y = b64_ofZ 1 /\ cross2 (H := B64 m) y x = b64_ofZ 0.
Proof. exact cross2_double. Qed.
Print Assumptions C19_cross2_refuted_double.

Example C19_example : bounded_by 2 (mk2 1 0) 1 /\ bounded_by 2 (mk2 0 1) 1.
Proof. split; intros [|[|i]] Hi; unfold co; simpl; try lia; unfold Rabs; destruct (Rcase_abs _); lra. Qed.

(** ** C20 *)
Theorem C20_sloppy_mag_1_2 : forall (eps : Epsilon) (v : coords R),
  sloppy_mag1 v = mag 1 v /\ mag 2 v <= sloppy_mag2 v <= sloppy_max2 * mag 2 v.
Proof. exact (fun eps v => conj (sloppy1_exact eps v) (sloppy2_bracket eps v)). Qed.
Print Assumptions C20_sloppy_mag_1_2.

(** in three dimensions the stated constant is slightly too small *)
Theorem C20_sloppy_mag3_refuted : forall (eps : Epsilon),
  exists v : coords R, dims 3 v /\ sloppy_max3 * mag 3 v < sloppy_mag3 v.
Proof. exact (fun eps => ex_intro _ (mk3 (3732 / 10000) (3732 / 10000) 1) (conj eq_refl (sloppy3_above_constant eps))). Qed.
Print Assumptions C20_sloppy_mag3_refuted.

Theorem C20_sloppy_mag3_partial : forall (eps : Epsilon) (v : coords R),
  mag 3 v <= sloppy_mag3 v <= 114593473 / 100000000 * mag 3 v.
Proof. exact sloppy3_bracket. Qed.
Print Assumptions C20_sloppy_mag3_partial.

Theorem C20_sloppy_norm2 : forall (eps : Epsilon) (v v' : coords R) k, 0 <= k ->
  sloppy_norm2 v k = Ret v' -> k / sloppy_max2 <= mag 2 v' <= k.
Proof. exact sloppy_norm2_ok. Qed.
Print Assumptions C20_sloppy_norm2.

Theorem C20_sloppy_norm3_partial : forall (eps : Epsilon) (v v' : coords R) k, 0 <= k ->
  sloppy_norm3 v k = Ret v' -> k / (114593473 / 100000000) <= mag 3 v' <= k.
Proof. exact sloppy_norm3_ok. Qed.
Print Assumptions C20_sloppy_norm3_partial.

(** sloppyNorm stops at its assertion only for (nearly) zero vectors *)
Theorem C20_sloppy_norm_defined : forall (eps : Epsilon) (v : coords R) k,
  (k / nmaxval < mag 2 v -> exists v', sloppy_norm2 v k = Ret v') /\
  (k / nmaxval < mag 3 v -> exists v', sloppy_norm3 v k = Ret v').
Proof. exact (fun eps v k => conj (sloppy_norm2_defined eps v k) (sloppy_norm3_defined eps v k)). Qed.
Print Assumptions C20_sloppy_norm_defined.

Example C20_example : exists v', sloppy_norm2 (H := Rnum 0) (mk2 3 4) 0 = Ret v'.
Proof.
  apply (sloppy_norm2_defined 0). unfold Rdiv. rewrite Rmult_0_l. rewrite mag_norm. apply sqrt_lt_R0.
  unfold norm2, inner, co. simpl. lra.
Qed.

(** ** C21 *)
Theorem C21_normalize : forall (eps : Epsilon) n (v : coords R) k, 0 <= k -> 0 < sqr_mag n v ->
  mag n (normalize n v k) = k /\
  exists c, 0 <= c /\ forall i, (i < n)%nat -> co (normalize n v k) i = c * co v i.
Proof. exact normalize_mag. Qed.
Print Assumptions C21_normalize.

Theorem C21_mirror_axis : forall (eps : Epsilon) n (v : coords R) i, dims n v -> (i < n)%nat ->
  exists v', mirror_axis n v i = Ret v' /\ dims n v' /\
    (forall j, (j < n)%nat -> co v' j = if Nat.eqb i j then - co v j else co v j) /\
    mirror_axis n v' i = Ret v /\ sqr_mag n v' = sqr_mag n v.
Proof. exact mirror_axis_all. Qed.
Print Assumptions C21_mirror_axis.

Theorem C21_mirror_all : forall (eps : Epsilon) n (v : coords R), dims n v ->
  mirror_all n (mirror_all n v) = v /\ sqr_mag n (mirror_all n v) = sqr_mag n v /\
  forall i, (i < n)%nat -> co (mirror_all n v) i = - co v i.
Proof. exact mirror_all_spec. Qed.
Print Assumptions C21_mirror_all.

(** the clamp of Dot inside mirror(v) is disabled (epsilon 0) *)
Theorem C21_mirror_vector : forall n (a v : coords R), dims n a -> 0 < norm2 n (co v) -> valid v = true ->
  @mirror_vec R (Rnum 0) n (@mirror_vec R (Rnum 0) n a v) v = a /\
  @sqr_mag R (Rnum 0) n (@mirror_vec R (Rnum 0) n a v) = @sqr_mag R (Rnum 0) n a /\
  (forall i, (i < n)%nat -> inner n (co v) (co a) = 0 -> co (@mirror_vec R (Rnum 0) n a v) i = co a i) /\
  (forall k i, (i < n)%nat -> (forall j, (j < n)%nat -> co a j = k * co v j) ->
     co (@mirror_vec R (Rnum 0) n a v) i = - co a i).
Proof.
  exact (fun n a v D N V => conj (mirror_vec_invol n a v D N V) (conj (mirror_vec_norm n a v N)
    (conj (fun i Hi => mirror_vec_fix n a v i Hi) (fun k i Hi => mirror_vec_neg n k a v i Hi N)))).
Qed.
Print Assumptions C21_mirror_vector.

Example C21_example : 0 < norm2 3 (co (mk3 1 2 (-3))) /\ dims 3 (mk3 1 2 (-3)).
Proof. split; [|reflexivity]. unfold norm2, inner, co. simpl. lra. Qed.

(** ** C22: the angles are measured from the wrong axes *)
Theorem C22_polar_refuted : forall (eps : Epsilon) x y, 0 < x * x + y * y ->
  let (r, theta) := as_polar (mk2 x y) in polar2 r theta = mk2 y x.
Proof. exact polar_swaps. Qed.
Print Assumptions C22_polar_refuted.

Theorem C22_polar3_refuted : forall (eps : Epsilon) x y z, 0 < x * x + y * y ->
  let '(r, theta, z') := as_polar3 (mk3 x y z) in polar3 r theta z' = mk3 y x z.
Proof. exact polar3_swaps. Qed.
Print Assumptions C22_polar3_refuted.

Theorem C22_spherical_refuted : forall (eps : Epsilon) x y z, 0 < x * x + y * y ->
  let '(r, theta, phi) := as_spherical (mk3 x y z) in
  let rho := sqrt (x * x + y * y) in
  spherical r theta phi = mk3 (z * y / rho) (z * x / rho) rho.
Proof. exact spherical_back. Qed.
Print Assumptions C22_spherical_refuted.

(** what does hold: the radius round trips, and the angle comes back complemented *)
Theorem C22_radius_partial : forall (eps : Epsilon) r theta phi, 0 <= r ->
  fst (as_polar (polar2 r theta)) = r /\ fst (fst (as_spherical (spherical r theta phi))) = r.
Proof. exact (fun eps r theta phi H => conj (polar_radius eps r theta H) (spherical_radius eps r theta phi H)). Qed.
Print Assumptions C22_radius_partial.

Theorem C22_angle_partial : forall (eps : Epsilon) r theta, 0 < r ->
  let t := snd (as_polar (polar2 r theta)) in cos t = sin theta /\ sin t = cos theta.
Proof. exact polar_angle. Qed.
Print Assumptions C22_angle_partial.

Example C22_example : 0 < 3 * 3 + 4 * 4 /\ mk2 3 4 <> mk2 4 3.
Proof. split; [lra|]. intros E. inversion E. lra. Qed.

(** ** C37 *)
Theorem C37_barycenter_mean : forall (eps : Epsilon) n (c : list (coords R)),
  dims n (barycenter n c) /\
  (c = [] -> valid (barycenter n c) = false) /\
  (c <> [] -> valid (barycenter n c) = forallb valid c /\
     forall i, (i < n)%nat -> co (barycenter n c) i = mean_coord c i).
Proof. exact bary_spec. Qed.
Print Assumptions C37_barycenter_mean.

Theorem C37_weighted_mean : forall (eps : Epsilon) n (c : list (coords R)) (w : list R),
  let used := combine c w in let W := lsum snd used in
  0 <= (eps : R) -> used <> [] -> (forall pw, In pw used -> eps * Rabs (snd pw) < Rabs W) ->
  valid (wbarycenter n c w) = forallb (fun pw => valid (fst pw)) used /\
  forall i, (i < n)%nat -> co (wbarycenter n c w) i = wmean_coord used i.
Proof. exact wbary_good. Qed.
Print Assumptions C37_weighted_mean.

Theorem C37_weighted_invalid : forall (eps : Epsilon) n (c : list (coords R)) (w : list R),
  let used := combine c w in let W := lsum snd used in
  0 <= (eps : R) -> used = [] \/ (exists pw, In pw used /\ Rabs W <= eps * Rabs (snd pw)) ->
  valid (wbarycenter n c w) = false.
Proof. exact wbary_bad. Qed.
Print Assumptions C37_weighted_invalid.

Theorem C37_midpoint : forall (eps : Epsilon) n (p q : coords R) d,
  valid (midpoint n p q d) = valid p && valid q /\
  forall i, (i < n)%nat -> co (midpoint n p q d) i = (1 - d) * co p i + d * co q i.
Proof. exact (fun eps n p q d => conj eq_refl (fun i => mid_co eps n p q d i)). Qed.
Print Assumptions C37_midpoint.

(** combinations with non-negative weights stay between any bounds on the coordinates *)
Theorem C37_in_box : forall (eps : Epsilon) n (c : list (coords R)) (w : list R) (p q : coords R) d i lo hi, (i < n)%nat ->
  (c <> [] -> (forall x, In x c -> lo <= co x i <= hi) -> lo <= co (barycenter n c) i <= hi) /\
  (let used := combine c w in 0 <= (eps : R) -> 0 < lsum snd used ->
   (forall pw, In pw used -> 0 <= snd pw /\ eps * snd pw < lsum snd used /\ lo <= co (fst pw) i <= hi) ->
   lo <= co (wbarycenter n c w) i <= hi) /\
  (0 <= d <= 1 -> Rmin (co p i) (co q i) <= co (midpoint n p q d) i <= Rmax (co p i) (co q i)).
Proof. exact combos_in_box. Qed.
Print Assumptions C37_in_box.

(** and commute with translations and with every other affine map *)
Theorem C37_affine : forall (eps : Epsilon) n f i, affine n f -> (i < n)%nat ->
  (forall c, c <> [] -> co (barycenter n (map f c)) i = co (f (barycenter n c)) i) /\
  (forall c w, let used := combine c w in let W := lsum snd used in
     0 <= (eps : R) -> used <> [] -> (forall pw, In pw used -> eps * Rabs (snd pw) < Rabs W) ->
     co (wbarycenter n (map f c) w) i = co (f (wbarycenter n c w)) i) /\
  (forall p q d, co (midpoint n (f p) (f q) d) i = co (f (midpoint n p q d)) i).
Proof. exact combos_affine. Qed.
Print Assumptions C37_affine.

Theorem C37_translation_is_affine : forall (eps : Epsilon) n (v : coords R), affine n (fun p => vec_add n p v).
Proof. exact shift_affine. Qed.
Print Assumptions C37_translation_is_affine.

Example C37_example : forall i, (i < 2)%nat ->
  co (barycenter (H := Rnum 0) 2 [mk2 0 0; mk2 3 0; mk2 0 6]) i = nth i [1; 2] 0.
Proof.
  intros i Hi. rewrite (bary_mean 0) by auto. unfold mean_coord.
  destruct i as [|[|i]]; [| |lia]; unfold co; simpl; field.
Qed.

(** ** C38 *)
Theorem C38_squared_distance : forall (eps : Epsilon) n (p q : coords R),
  squared_distance n p q = squared_distance n q p /\ 0 <= squared_distance n p q /\
  (squared_distance n p q = dist2 n (co p) (co q) \/ squared_distance n p q = 0) /\
  distance n p q = sqrt (squared_distance n p q).
Proof.
  exact (fun eps n p q => conj (sqd_sym eps n p q) (conj (sqd_nonneg eps n p q) (conj (sqd_exact_or_zero eps n p q) eq_refl))).
Qed.
Print Assumptions C38_squared_distance.

Theorem C38_error : forall (eps : Epsilon) n (p q : coords R) A B,
  0 <= (eps : R) -> dims n p -> dims n q -> nonzero n p -> nonzero n q -> bounded_by n p A -> bounded_by n q B ->
  Rabs (squared_distance n p q - dist2 n (co p) (co q)) <= 2 * eps * Rmin A B.
Proof. exact sqd_error. Qed.
Print Assumptions C38_error.

Theorem C38_error_origin : forall (eps : Epsilon) n (p q : coords R),
  0 <= (eps : R) -> dims n p -> (forall i, (i < n)%nat -> co p i = 0) ->
  Rabs (squared_distance n p q - dist2 n (co p) (co q)) <= eps.
Proof. exact sqd_error_origin. Qed.
Print Assumptions C38_error_origin.

(** far apart points: exact, hence invariant under translation *)
Theorem C38_exact_when_far : forall (eps : Epsilon) n (p q : coords R) A B,
  0 <= (eps : R) -> dims n p -> dims n q -> nonzero n p -> nonzero n q -> bounded_by n p A -> bounded_by n q B ->
  2 * eps * Rmin A B <= dist2 n (co p) (co q) -> squared_distance n p q = dist2 n (co p) (co q).
Proof. exact sqd_exact_far. Qed.
Print Assumptions C38_exact_when_far.

Theorem C38_metric_without_clamp : forall n (p q r v : coords R),
  @distance R (Rnum 0) n p q = dist n (co p) (co q) /\
  @distance R (Rnum 0) n p r <= @distance R (Rnum 0) n p q + @distance R (Rnum 0) n q r /\
  (@distance R (Rnum 0) n p q = 0 <-> forall i, (i < n)%nat -> co p i = co q i) /\
  @distance R (Rnum 0) n (vec_add (H := Rnum 0) n p v) (vec_add (H := Rnum 0) n q v) = @distance R (Rnum 0) n p q.
Proof. exact distance0_metric. Qed.
Print Assumptions C38_metric_without_clamp.

(** Distance == 0 does not imply p == q with the library's own tolerance *)
Theorem C38_zero_distance_refuted : forall m : libm,
  let p := mkC [b64_ofZ 1] true in
  let q := mkC [binary_normalize prec64 emax64 (2^25 + 1) (-25) false] true in
  distance (H := B64 m) 1 p q = S754_zero false /\ vec_equal (H := B64 m) 1 p q b64_eps = false.
Proof. exact zero_distance_double. Qed.
Print Assumptions C38_zero_distance_refuted.

Theorem C38_zero_distance_partial : forall (eps : Epsilon) n (p q : coords R) A B,
  0 <= (eps : R) -> dims n p -> dims n q -> nonzero n p -> nonzero n q -> bounded_by n p A -> bounded_by n q B ->
  distance n p q = 0 -> dist2 n (co p) (co q) <= 2 * eps * Rmin A B.
Proof. exact zero_distance_close. Qed.
Print Assumptions C38_zero_distance_partial.

Example C38_example : nonzero 2 (mk2 1 0) /\ nonzero 2 (mk2 0 1) /\ @distance R (Rnum 0) 2 (mk2 1 5) (mk2 4 1) = 5.
Proof.
  split; [exists 0%nat; split; [lia|]; unfold co; simpl; lra|].
  split; [exists 1%nat; split; [lia|]; unfold co; simpl; lra|].
  rewrite distance0. unfold dist, dist2, norm2, inner, co. simpl.
  replace (0 + _ + _) with (5 * 5) by ring. apply sqrt_square. lra.
Qed.

(** ** C55 *)
Theorem C55_equality_double : forall (m : libm) n a b e,
  vec_equal (H := B64 m) n a b e = vec_equal (H := B64 m) n b a e /\
  (dims n a -> valid a = true -> Forall finite_double (el a) -> tolerance e -> vec_equal (H := B64 m) n a a e = true).
Proof. exact (fun m n a b e => conj (vec_equal_b64_sym m n a b e) (vec_equal_b64_refl m n a e)). Qed.
Print Assumptions C55_equality_double.

Theorem C55_equality_bound : forall (eps : Epsilon) n (a b : coords R) A B e i,
  0 <= e -> dims n a -> dims n b -> nonzero n a -> nonzero n b -> bounded_by n a A -> bounded_by n b B ->
  vec_equal n a b e = true -> (i < n)%nat -> Rabs (co a i - co b i) <= 2 * e * Rmin A B.
Proof. exact vec_equal_bound. Qed.
Print Assumptions C55_equality_bound.

Theorem C55_equality_monotone : forall (eps : Epsilon) n (a b : coords R) e e', e <= e' ->
  vec_equal n a b e = true -> vec_equal n a b e' = true.
Proof. exact vec_equal_mono. Qed.
Print Assumptions C55_equality_monotone.

Theorem C55_equality_exact : forall (eps : Epsilon) n (a b : coords R), dims n a -> dims n b ->
  (vec_equal n a b 0 = true <-> a = b /\ valid a = true).
Proof. exact vec_equal_exact. Qed.
Print Assumptions C55_equality_exact.

Example C55_example : forall m : libm, vec_equal (H := B64 m) 2 (mkC [b64_ofZ 1; b64_ofZ 2] true)
  (mkC [b64_ofZ 1; SFsucc prec64 emax64 (b64_ofZ 2)] true) b64_eps = true.
Proof. intros m. vm_compute. reflexivity. Qed.
