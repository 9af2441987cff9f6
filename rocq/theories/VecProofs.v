(** Proofs about vectors and points over the reals (any dimension). *)
From Coq Require Import Reals Lra Lia List Bool Psatz ZArith.
From Flocq Require Import Core.Zaux Core.Raux.
From Verif Require Import Base Scalar ConstModel VecModel RSpec RLib VecSpec.
Import ListNotations.
Open Scope R_scope.

(** expose coordinates and real operations *)
Ltac toco :=
  repeat match goal with |- context [@at_ R ?I ?v ?i] => change (@at_ R I v i) with (co v i) end;
  unfold n0, n1, n2, nhalf; cbn [nadd nsub nmul ndiv nopp nabs nsqrt nofZ neps nsin ncos Rnum].

Lemma co_tab n f b i : (i < n)%nat -> co (mkC (tab n f) b) i = f i.
Proof. intros. unfold co. simpl el. apply nth_tab; auto. Qed.

Section V.
Context (eps : Epsilon).
Variable n : nat.

Lemma at_co (v : coords R) i : at_ v i = co v i.
Proof. reflexivity. Qed.

Lemma at_tab f b i : (i < n)%nat -> at_ (mkC (tab n f) b) i = f i.
Proof. intros. unfold at_, get. simpl el. apply nth_tab; auto. Qed.

Lemma dims_tab f b : dims n (mkC (tab n f) b : coords R).
Proof. apply tab_length. Qed.

Lemma coords_eq (a b : coords R) : dims n a -> dims n b -> valid a = valid b ->
  (forall i, (i < n)%nat -> co a i = co b i) -> a = b.
Proof.
  destruct a as [la va], b as [lb vb]. unfold dims, co. simpl. intros H1 H2 -> H. f_equal.
  apply (list_eq_nth _ _ 0); [congruence|]. rewrite H1. auto.
Qed.

Lemma coords_tab (v : coords R) : dims n v -> mkC (tab n (co v)) (valid v) = v.
Proof. intros H. apply coords_eq; auto using dims_tab. intros. apply co_tab; auto. Qed.

Ltac vauto :=
  apply coords_eq;
  [first [apply dims_tab|assumption]|first [apply dims_tab|assumption]|
   cbn [valid vec_add vec_sub vec_neg vec_scale vec_div vec_zero point_of_vec vec_of_point]|
   intros; unfold vec_add, vec_sub, vec_neg, vec_scale, vec_div, vec_zero, point_of_vec, vec_of_point; rewrite ?co_tab by auto;
   rewrite ?at_tab by auto; toco].

(** C15 *)
Lemma add_comm (a b : coords R) : vec_add n a b = vec_add n b a.
Proof. vauto. apply andb_comm. ring. Qed.
Lemma add_assoc (a b c : coords R) : vec_add n (vec_add n a b) c = vec_add n a (vec_add n b c).
Proof. vauto. symmetry; apply andb_assoc. ring. Qed.
Lemma add_zero (a : coords R) : dims n a -> vec_add n a (vec_zero n) = a.
Proof. intros. vauto. apply andb_true_r. unfold n0. cbn [nofZ Rnum]. ring. Qed.
Lemma add_neg (a : coords R) : valid a = true -> vec_add n a (vec_neg n a) = vec_zero n.
Proof. intros. vauto. rewrite H; auto. unfold n0; cbn [nofZ Rnum]. ring. Qed.
Lemma sub_add_neg (a b : coords R) : vec_sub n a b = vec_add n a (vec_neg n b).
Proof. vauto. auto. ring. Qed.
Lemma scale_add_vec (a b : coords R) k : vec_scale n (vec_add n a b) k = vec_add n (vec_scale n a k) (vec_scale n b k).
Proof. vauto. auto. ring. Qed.
Lemma scale_add_scalar (a : coords R) k l : vec_scale n a (k + l) = vec_add n (vec_scale n a k) (vec_scale n a l).
Proof. vauto. destruct (valid a); auto. ring. Qed.
Lemma scale_scale (a : coords R) k l : vec_scale n (vec_scale n a k) l = vec_scale n a (k * l).
Proof. vauto. auto. ring. Qed.
Lemma scale_one (a : coords R) : dims n a -> vec_scale n a 1 = a.
Proof. intros. vauto. auto. ring. Qed.
Lemma div_scale (a : coords R) k : vec_div n a k = vec_scale n a (/ k).
Proof. vauto. auto. reflexivity. Qed.
Lemma point_add_sub (p q : coords R) : dims n q -> valid p = true -> vec_add n p (vec_sub n q p) = q.
Proof. intros. vauto. rewrite H0; simpl; apply andb_true_r. ring. Qed.
Lemma point_sub_add (p v : coords R) : dims n v -> valid p = true -> vec_sub n (vec_add n p v) p = v.
Proof. intros. vauto. rewrite H0; simpl; apply andb_true_r. ring. Qed.
Lemma point_chasles (p q r : coords R) : valid q = true -> vec_add n (vec_sub n p q) (vec_sub n q r) = vec_sub n p r.
Proof. intros. vauto. rewrite H, andb_true_r; reflexivity. ring. Qed.

(** C16 *)
Lemma nsum_inner (a b : coords R) : nsum n (fun i => (at_ a i * at_ b i)%num) = inner n (co a) (co b).
Proof. rewrite nsum_Rsum. reflexivity. Qed.

Lemma sqr_mag_norm2 (a : coords R) : sqr_mag n a = norm2 n (co a).
Proof. unfold sqr_mag. rewrite nsum_inner. reflexivity. Qed.
Lemma mag_norm (a : coords R) : mag n a = norm n (co a).
Proof. unfold mag. rewrite sqr_mag_norm2. reflexivity. Qed.

(** The clamp used by Dot, Cross, SquaredDistance: its threshold. *)
Lemma arr_sym (a b : list R) e : scale_eps_arr a b e = scale_eps_arr b a e.
Proof. unfold scale_eps_arr. apply scale_eps_sym. Qed.
Lemma arr_nonneg (a b : list R) e : 0 <= e -> 0 <= scale_eps_arr a b e.
Proof. apply scale_eps_nonneg. Qed.

Lemma max_abs_bound (v : coords R) B : dims n v -> bounded_by n v B -> 0 <= B -> max_abs (el v) <= B.
Proof.
  intros D H HB. destruct (max_abs_attained eps (el v)) as [->|(x & Hx & ->)]; auto.
  apply (In_nth _ _ 0) in Hx as (i & Hi & <-). apply H. rewrite <- D; auto.
Qed.
Lemma co_max_abs (v : coords R) i : dims n v -> (i < n)%nat -> Rabs (co v i) <= max_abs (el v).
Proof. intros D H. apply max_abs_nth. rewrite D; auto. Qed.

(** a threshold bound valid when neither array is zero *)
Lemma arr_bound_l (a b : coords R) B e : 0 <= e -> dims n a -> bounded_by n a B -> 0 <= B ->
  max_abs (el a) <> 0 -> max_abs (el b) <> 0 -> scale_eps_arr (el a) (el b) e <= 2 * e * B.
Proof.
  intros He D H HB Na Nb. unfold scale_eps_arr.
  pose proof (scale_eps_bounds eps _ _ e He Na Nb) as [_ U]. eapply Rle_trans; [exact U|].
  assert (Rmin (Rabs (max_abs (el a))) (Rabs (max_abs (el b))) <= B).
  { eapply Rle_trans; [apply Rmin_l|]. rewrite Rabs_pos_eq by apply max_abs_nonneg. apply max_abs_bound; auto. }
  apply Rmult_le_compat_l; lra.
Qed.

Lemma bounded_nonneg (v : coords R) B : (0 < n)%nat -> bounded_by n v B -> 0 <= B.
Proof. intros Hn H. specialize (H 0%nat Hn). pose proof (Rabs_pos (co v 0)). lra. Qed.

Lemma zero_inner_l (a b : coords R) : dims n a -> max_abs (el a) = 0 -> inner n (co a) (co b) = 0.
Proof.
  intros D E. apply Rsum_zero. intros i Hi.
  pose proof (proj1 (max_abs_zero eps (el a)) E (co a i)) as Z.
  rewrite Z; [ring|]. apply nth_In. rewrite D; auto.
Qed.

Lemma dot_def (a b : coords R) : dot n a b =
  if Rle_bool (scale_eps_arr (el a) (el b) eps) (Rabs (inner n (co a) (co b))) then inner n (co a) (co b) else 0.
Proof. unfold dot. rewrite nsum_inner. reflexivity. Qed.

Lemma dot_comm (a b : coords R) : dot n a b = dot n b a.
Proof. rewrite !dot_def, arr_sym, inner_comm. reflexivity. Qed.

Lemma dot_exact_or_zero (a b : coords R) : dot n a b = inner n (co a) (co b) \/ dot n a b = 0.
Proof. rewrite dot_def. destruct (Rle_bool _ _); auto. Qed.

Lemma dot_error (a b : coords R) A B : (0 < n)%nat -> 0 <= (eps : R) -> dims n a -> dims n b ->
  bounded_by n a A -> bounded_by n b B ->
  Rabs (dot n a b - inner n (co a) (co b)) <= 2 * eps * Rmin A B.
Proof.
  intros Hn He Da Db HA HB.
  pose proof (bounded_nonneg a A Hn HA) as PA. pose proof (bounded_nonneg b B Hn HB) as PB.
  assert (PM : 0 <= Rmin A B) by (apply Rmin_glb; auto).
  assert (Z : inner n (co a) (co b) = 0 -> Rabs (dot n a b - inner n (co a) (co b)) <= 2 * eps * Rmin A B).
  { intros Z. assert (dot n a b = 0) as -> by (destruct (dot_exact_or_zero a b); congruence).
    rewrite Z, Rminus_0_r, Rabs_R0. apply Rmult_le_pos; lra. }
  destruct (Req_dec (max_abs (el a)) 0) as [Ea|Ea].
  { apply Z. apply zero_inner_l; auto. }
  destruct (Req_dec (max_abs (el b)) 0) as [Eb|Eb].
  { apply Z. rewrite inner_comm. apply zero_inner_l; auto. }
  rewrite dot_def. destruct (Rle_bool_spec (scale_eps_arr (el a) (el b) eps) (Rabs (inner n (co a) (co b)))) as [L|L].
  - rewrite Rminus_diag_eq, Rabs_R0 by auto. apply Rmult_le_pos; lra.
  - rewrite Rminus_0_l, Rabs_Ropp. eapply Rle_trans; [apply Rlt_le, L|].
    unfold Rmin. destruct (Rle_dec A B).
    + apply arr_bound_l; auto.
    + rewrite arr_sym. apply arr_bound_l; auto.
Qed.

Lemma dot_cauchy (a b : coords R) : dot n a b * dot n a b <= sqr_mag n a * sqr_mag n b.
Proof.
  rewrite !sqr_mag_norm2. destruct (dot_exact_or_zero a b) as [->| ->].
  - apply cauchy_schwarz.
  - pose proof (norm2_nonneg n (co a)). pose proof (norm2_nonneg n (co b)). nra.
Qed.

(** C17 *)
Lemma dot_self_large (v : coords R) i : 0 <= (eps : R) -> dims n v -> (i < n)%nat -> 2 * eps <= Rabs (co v i) ->
  dot n v v = sqr_mag n v.
Proof.
  intros He D Hi Hb. rewrite sqr_mag_norm2, dot_def. fold (norm2 n (co v)).
  pose proof (norm2_nonneg n (co v)) as N0.
  rewrite Rabs_pos_eq by auto.
  destruct (Req_dec (max_abs (el v)) 0) as [E|E].
  - fold (norm2 n (co v)). assert (norm2 n (co v) = 0) as -> by (apply zero_inner_l; auto).
    destruct (Rle_bool _ _); reflexivity.
  - assert (scale_eps_arr (el v) (el v) eps <= norm2 n (co v)).
    { unfold scale_eps_arr. pose proof (scale_eps_bounds eps _ _ eps He E E) as [_ U].
      eapply Rle_trans; [exact U|]. pose proof (max_abs_nonneg eps (el v)).
      rewrite Rmin_left, Rabs_pos_eq by (auto; lra).
      destruct (max_abs_attained eps (el v)) as [E'|(x & Hx & E')]; [congruence|].
      apply (In_nth _ _ 0) in Hx as (j & Hj & <-). rewrite D in Hj. fold (co v j) in E'.
      pose proof (norm2_coord_le n (co v) j Hj) as P.
      pose proof (co_max_abs v i D Hi) as Q.
      assert (co v j * co v j = max_abs (el v) * max_abs (el v)) as Sq.
      { rewrite E'. unfold Rabs. destruct (Rcase_abs (co v j)); ring. }
      assert (2 * eps * max_abs (el v) <= max_abs (el v) * max_abs (el v)) by (apply Rmult_le_compat_r; lra).
      lra. }
    apply Rleb_iff in H. rewrite H. reflexivity.
Qed.

(** C21 *)
Lemma normalize_mag (v : coords R) k : 0 <= k -> 0 < sqr_mag n v ->
  mag n (normalize n v k) = k /\ exists c, 0 <= c /\ forall i, (i < n)%nat -> co (normalize n v k) i = c * co v i.
Proof.
  intros Hk Hv. unfold normalize. rewrite sqr_mag_norm2 in Hv.
  assert (E : forall i, (i < n)%nat -> co (vec_scale n v (k / mag n v)) i = (k / mag n v) * co v i).
  { intros. unfold vec_scale. rewrite co_tab by auto. rewrite at_co. cbn [nmul Rnum]. ring. }
  assert (Pm : 0 < mag n v). { rewrite mag_norm. apply sqrt_lt_R0. auto. }
  split.
  - rewrite mag_norm. unfold norm. unfold norm2.
    cbn [ndiv Rnum]. rewrite (inner_ext n _ _ _ _ E E).
    fold (norm2 n (fun i => k / mag n v * co v i)). rewrite norm2_scal.
    rewrite <- (norm_sqr n (co v)), <- mag_norm.
    replace (k / mag n v * (k / mag n v) * (mag n v * mag n v)) with (k * k) by (field; lra).
    apply sqrt_square; auto.
  - exists (k / mag n v). split; auto. apply Rmult_le_pos; auto. apply Rlt_le, Rinv_0_lt_compat; auto.
Qed.

Lemma mirror_all_invol (v : coords R) : dims n v -> mirror_all n (mirror_all n v) = v.
Proof. intros. unfold mirror_all. vauto. auto. unfold n1. cbn [nofZ Rnum]. ring. Qed.
Lemma mirror_all_mag (v : coords R) : sqr_mag n (mirror_all n v) = sqr_mag n v.
Proof.
  rewrite !sqr_mag_norm2. apply Rsum_ext. intros. unfold mirror_all, vec_scale. rewrite co_tab by auto.
  rewrite at_co. unfold n1. cbn [nmul nopp nofZ Rnum]. ring.
Qed.

Lemma mirror_axis_some (v : coords R) i : dims n v -> (i < n)%nat ->
  mirror_axis n v i = Ret (mkC (upd (el v) i (- co v i)) (valid v)).
Proof.
  intros D Hi. unfold mirror_axis. rewrite (proj2 (Nat.ltb_lt i n) Hi).
  rewrite oset_ret by (rewrite D; auto). cbn [obind]. rewrite at_co. unfold n1. cbn [nmul nopp nofZ Rnum].
  repeat f_equal. ring.
Qed.
Lemma mirror_axis_coord (v v' : coords R) i j : dims n v -> (i < n)%nat -> (j < n)%nat ->
  mirror_axis n v i = Ret v' -> co v' j = if Nat.eqb i j then - co v j else co v j.
Proof.
  intros D Hi Hj. rewrite mirror_axis_some by auto. intros E. inversion E; subst. unfold co. simpl.
  destruct (Nat.eqb_spec i j) as [->|Ne].
  - apply nth_upd_same. rewrite D; auto.
  - apply nth_upd_other; auto.
Qed.
Lemma mirror_axis_invol (v v' : coords R) i : dims n v -> (i < n)%nat ->
  mirror_axis n v i = Ret v' -> dims n v' /\ mirror_axis n v' i = Ret v /\ sqr_mag n v' = sqr_mag n v.
Proof.
  intros D Hi E. pose proof E as E0. rewrite mirror_axis_some in E by auto. inversion E; subst; clear E.
  assert (D' : dims n (mkC (upd (el v) i (- co v i)) (valid v))) by (unfold dims; simpl; rewrite upd_length; auto).
  split; auto. split.
  - rewrite mirror_axis_some by auto. f_equal. apply coords_eq; auto.
    { unfold dims; simpl; rewrite !upd_length; auto. }
    intros j Hj. unfold co at 1. simpl. destruct (Nat.eq_dec i j) as [->|Ne].
    + rewrite nth_upd_same by (rewrite upd_length, D; auto). unfold co. simpl.
      rewrite nth_upd_same by (rewrite D; auto). ring.
    + rewrite !nth_upd_other by auto. reflexivity.
  - rewrite !sqr_mag_norm2. apply Rsum_ext. intros j Hj. rewrite (mirror_axis_coord v _ i j D Hi Hj E0).
    destruct (Nat.eqb i j); ring.
Qed.
End V.

(** ** The exact instance: clamps disabled *)
Section V0.
Variable n : nat.
#[local] Instance zero_eps : Epsilon := 0.

Lemma dot_inner (a b : coords R) : @dot R (Rnum 0) n a b = inner n (co a) (co b).
Proof.
  rewrite (dot_def 0). unfold scale_eps_arr. rewrite (scale_eps_eps0 0).
  rewrite Rle_bool_true; auto. apply Rabs_pos.
Qed.

Lemma mirror_vec_co (a v : coords R) i : (i < n)%nat ->
  co (@mirror_vec R (Rnum 0) n a v) i = co a i - 2 * inner n (co v) (co a) / norm2 n (co v) * co v i.
Proof.
  intros Hi. unfold mirror_vec, vec_sub, vec_div, vec_scale.
  rewrite co_tab by auto. rewrite !at_tab by auto. rewrite dot_inner, sqr_mag_norm2. toco. unfold Rdiv. ring.
Qed.

Lemma mirror_vec_dot_v (a v : coords R) : 0 < norm2 n (co v) ->
  inner n (co v) (co (@mirror_vec R (Rnum 0) n a v)) = - inner n (co v) (co a).
Proof.
  intros Hv. rewrite (inner_ext n _ _ (co v) (fun i => co a i - (2 * inner n (co v) (co a) / norm2 n (co v)) * co v i)).
  2: auto. 2:{ intros. apply mirror_vec_co; auto. }
  rewrite inner_minus_r, inner_scal_r. unfold norm2 at 1 in Hv. unfold norm2. field. lra.
Qed.

Lemma mirror_vec_invol (a v : coords R) : dims n a -> 0 < norm2 n (co v) -> valid v = true ->
  @mirror_vec R (Rnum 0) n (@mirror_vec R (Rnum 0) n a v) v = a.
Proof.
  intros D Hv Vv. apply (coords_eq n); auto.
  - apply dims_tab.
  - simpl. rewrite Vv. rewrite !andb_true_r. reflexivity.
  - intros i Hi. rewrite mirror_vec_co, mirror_vec_dot_v, mirror_vec_co by auto. field. lra.
Qed.
Lemma mirror_vec_norm (a v : coords R) : 0 < norm2 n (co v) ->
  @sqr_mag R (Rnum 0) n (@mirror_vec R (Rnum 0) n a v) = @sqr_mag R (Rnum 0) n a.
Proof.
  intros Hv. rewrite !sqr_mag_norm2. unfold norm2 at 1.
  pose (k := 2 * inner n (co v) (co a) / norm2 n (co v)).
  rewrite (inner_ext n _ _ (fun i => co a i - k * co v i) (fun i => co a i - k * co v i));
    try (intros; apply mirror_vec_co; auto).
  fold (norm2 n (fun i => co a i - k * co v i)). rewrite norm2_minus, norm2_scal, inner_scal_r.
  rewrite (inner_comm n (co a) (co v)). unfold k. field. lra.
Qed.
Lemma mirror_vec_fix (a v : coords R) i : (i < n)%nat -> inner n (co v) (co a) = 0 ->
  co (@mirror_vec R (Rnum 0) n a v) i = co a i.
Proof. intros Hi E. rewrite mirror_vec_co, E by auto. unfold Rdiv. ring. Qed.
Lemma mirror_vec_neg (k : R) (a v : coords R) i : (i < n)%nat -> 0 < norm2 n (co v) ->
  (forall j, (j < n)%nat -> co a j = k * co v j) -> co (@mirror_vec R (Rnum 0) n a v) i = - co a i.
Proof.
  intros Hi Hv E. rewrite mirror_vec_co by auto.
  rewrite (inner_ext n _ _ (co v) (fun j => k * co v j)) by auto. rewrite inner_scal_r, E by auto.
  fold (norm2 n (co v)). field. lra.
Qed.
End V0.
