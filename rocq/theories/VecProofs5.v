(** Assembly of the vector and point theorems. *)
From Coq Require Import Reals Lra Lia List Bool Psatz ZArith SpecFloat.
From Flocq Require Import Core.Zaux Core.Raux.
From Verif Require Import Base Scalar ConstModel ConstSpec VecModel RSpec RLib VecSpec VecProofs VecProofs2 VecProofs3 VecProofs4.
Import ListNotations.
Open Scope R_scope.

Lemma vec_coordinates (eps : Epsilon) n (a b : coords R) k i : (i < n)%nat ->
  co (vec_add n a b) i = co a i + co b i /\ co (vec_sub n a b) i = co a i - co b i /\
  co (vec_neg n a) i = - co a i /\ co (vec_scale n a k) i = co a i * k /\
  co (vec_div n a k) i = co a i / k /\ co (vec_zero n) i = 0.
Proof.
  intros Hi. unfold vec_add, vec_sub, vec_neg, vec_scale, vec_div, vec_zero. rewrite !co_tab by auto.
  repeat split.
Qed.

Lemma dot_bilinear n (a b c : coords R) k :
  @dot R (Rnum 0) n a b = inner n (co a) (co b) /\
  @dot R (Rnum 0) n (vec_add (H := Rnum 0) n a b) c = @dot R (Rnum 0) n a c + @dot R (Rnum 0) n b c /\
  @dot R (Rnum 0) n (vec_scale (H := Rnum 0) n a k) c = k * @dot R (Rnum 0) n a c.
Proof.
  rewrite !dot_inner. repeat split.
  - unfold inner. rewrite <- Rsum_plus. apply Rsum_ext. intros i Hi.
    destruct (vec_coordinates 0 n a b 0 i Hi) as (-> & _). ring.
  - unfold inner. rewrite <- Rsum_scal_l. apply Rsum_ext. intros i Hi.
    destruct (vec_coordinates 0 n a a k i Hi) as (_ & _ & _ & -> & _). ring.
Qed.

Lemma dot_self_double (m : libm) :
  let tiny := binary_normalize prec64 emax64 1 (-60) false in
  let v := mkC [tiny; tiny; tiny] true in
  dot (H := B64 m) 3 v v = S754_zero false /\ SFltb (S754_zero false) (sqr_mag (H := B64 m) 3 v) = true.
Proof. vm_compute. split; reflexivity. Qed.

Lemma cross2_double (m : libm) :
  let x := mkC [b64_ofZ 1; b64_ofZ 0] true in let y := mkC [b64_ofZ 0; b64_ofZ 1] true in
  cross2 (H := B64 m) x y = b64_ofZ 1 /\ cross2 (H := B64 m) y x = b64_ofZ 0.
Proof. vm_compute. split; reflexivity. Qed.

Lemma zero_distance_double (m : libm) :
  let p := mkC [b64_ofZ 1] true in
  let q := mkC [binary_normalize prec64 emax64 (2^25 + 1) (-25) false] true in
  distance (H := B64 m) 1 p q = S754_zero false /\ vec_equal (H := B64 m) 1 p q b64_eps = false.
Proof. vm_compute. split; reflexivity. Qed.

Lemma bounded_mk2 x y B : Rabs x <= B -> Rabs y <= B -> bounded_by 2 (mk2 x y) B.
Proof. intros Hx Hy [|[|i]] Hi; unfold co; simpl; auto; lia. Qed.

Lemma cross2_not_anti (eps : Epsilon) : 0 <= (eps : R) < 1/4 ->
  exists a b : coords R, dims 2 a /\ dims 2 b /\ cross2 a b = 1 /\ cross2 b a = 0.
Proof.
  intros He. exists (mk2 1 0), (mk2 0 1). split; [reflexivity|split; [reflexivity|]].
  assert (B1 : bounded_by 2 (mk2 1 0) 1) by (apply bounded_mk2; rewrite Rabs_pos_eq; lra).
  assert (B2 : bounded_by 2 (mk2 0 1) 1) by (apply bounded_mk2; rewrite Rabs_pos_eq; lra).
  rewrite !cross2_def. unfold cross2_exact.
  change (co (mk2 1 0) 0) with 1. change (co (mk2 1 0) 1) with 0. change (co (mk2 0 1) 0) with 0. change (co (mk2 0 1) 1) with 1.
  assert (U : scale_eps_arr (el (mk2 1 0)) (el (mk2 0 1)) eps <= 2 * eps * Rmin 1 1).
  { apply (arr_bound eps 2); auto; try lra; try reflexivity; [exists 0%nat|exists 1%nat]; unfold co; simpl; split; try lia; lra. }
  rewrite (arr_sym eps (el (mk2 0 1))). rewrite Rmin_left in U by lra.
  pose proof (arr_nonneg eps (el (mk2 1 0)) (el (mk2 0 1)) eps ltac:(lra)) as U0.
  set (d := scale_eps_arr _ _ _) in *. clearbody d.
  split.
  - destruct (Rle_bool_spec d (1 * 1 - 0 * 0)); lra.
  - destruct (Rle_bool_spec d (0 * 0 - 1 * 1)); lra.
Qed.

Lemma mirror_axis_all (eps : Epsilon) n (v : coords R) i : dims n v -> (i < n)%nat ->
  exists v', mirror_axis n v i = Ret v' /\ dims n v' /\
    (forall j, (j < n)%nat -> co v' j = if Nat.eqb i j then - co v j else co v j) /\
    mirror_axis n v' i = Ret v /\ sqr_mag n v' = sqr_mag n v.
Proof.
  intros D Hi. eexists. split; [apply mirror_axis_some; auto|].
  destruct (mirror_axis_invol eps n v _ i D Hi (mirror_axis_some eps n v i D Hi)) as (A & B & C).
  repeat split; auto. intros j Hj. apply (mirror_axis_coord eps n v _ i j D Hi Hj). apply mirror_axis_some; auto.
Qed.
Lemma mirror_all_spec (eps : Epsilon) n (v : coords R) : dims n v ->
  mirror_all n (mirror_all n v) = v /\ sqr_mag n (mirror_all n v) = sqr_mag n v /\
  forall i, (i < n)%nat -> co (mirror_all n v) i = - co v i.
Proof.
  intros D. split; [apply mirror_all_invol; auto|]. split; [apply mirror_all_mag|].
  intros i Hi. unfold mirror_all. destruct (vec_coordinates eps n v v (- n1)%num i Hi) as (_ & _ & _ & -> & _).
  unfold n1. cbn [nofZ nopp Rnum]. ring.
Qed.

Lemma bary_spec (eps : Epsilon) n (c : list (coords R)) :
  dims n (barycenter n c) /\
  (c = [] -> valid (barycenter n c) = false) /\
  (c <> [] -> valid (barycenter n c) = forallb valid c /\
     forall i, (i < n)%nat -> co (barycenter n c) i = mean_coord c i).
Proof.
  split; [apply bary_dims|]. split; [intros ->; reflexivity|].
  destruct c as [|p rest]; [congruence|]. intros _. split; [apply bary_valid|].
  intros. apply bary_mean; auto.
Qed.

Lemma wbary_good (eps : Epsilon) n (c : list (coords R)) (w : list R) :
  let used := combine c w in let W := lsum snd used in
  0 <= (eps : R) -> used <> [] -> (forall pw, In pw used -> eps * Rabs (snd pw) < Rabs W) ->
  valid (wbarycenter n c w) = forallb (fun pw => valid (fst pw)) used /\
  forall i, (i < n)%nat -> co (wbarycenter n c w) i = wmean_coord used i.
Proof.
  destruct c as [|p c], w as [|w0 w]; cbn zeta; try (simpl; congruence).
  intros He _ H. destruct (wbary_spec eps n p c w0 w He) as [A _]. apply A; auto.
Qed.
Lemma wbary_bad (eps : Epsilon) n (c : list (coords R)) (w : list R) :
  let used := combine c w in let W := lsum snd used in
  0 <= (eps : R) -> used = [] \/ (exists pw, In pw used /\ Rabs W <= eps * Rabs (snd pw)) ->
  valid (wbarycenter n c w) = false.
Proof.
  destruct c as [|p c], w as [|w0 w]; cbn zeta; try reflexivity.
  intros He [H|H]; [discriminate|]. destruct (wbary_spec eps n p c w0 w He) as [_ A]. apply A; auto.
Qed.

Lemma combos_in_box (eps : Epsilon) n (c : list (coords R)) (w : list R) (p q : coords R) d i lo hi : (i < n)%nat ->
  (c <> [] -> (forall x, In x c -> lo <= co x i <= hi) -> lo <= co (barycenter n c) i <= hi) /\
  (let used := combine c w in 0 <= (eps : R) -> 0 < lsum snd used ->
   (forall pw, In pw used -> 0 <= snd pw /\ eps * snd pw < lsum snd used /\ lo <= co (fst pw) i <= hi) ->
   lo <= co (wbarycenter n c w) i <= hi) /\
  (0 <= d <= 1 -> Rmin (co p i) (co q i) <= co (midpoint n p q d) i <= Rmax (co p i) (co q i)).
Proof.
  intros Hi. split; [|split].
  - destruct c as [|x rest]; [congruence|]. intros _ H. apply bary_in_box; auto.
  - cbn zeta. intros He P H. destruct (wbary_good eps n c w He) as [_ E].
    + intros Z. rewrite Z in P. simpl in P. lra.
    + intros pw Hin. destruct (H pw Hin) as (A & B & _). rewrite !Rabs_pos_eq by lra. auto.
    + rewrite E by auto. apply wmean_in_box; auto. intros pw Hin. destruct (H pw Hin) as (A & _ & B). auto.
  - intros. apply mid_in_box; auto.
Qed.

Lemma combine_map_l {A B C} (f : A -> C) (l : list A) (w : list B) :
  combine (map f l) w = map (fun pw => (f (fst pw), snd pw)) (combine l w).
Proof. revert w. induction l as [|x l IH]; intros [|y w]; simpl; auto. rewrite IH. reflexivity. Qed.

Lemma combos_affine (eps : Epsilon) n f i : affine n f -> (i < n)%nat ->
  (forall c, c <> [] -> co (barycenter n (map f c)) i = co (f (barycenter n c)) i) /\
  (forall c w, let used := combine c w in let W := lsum snd used in
     0 <= (eps : R) -> used <> [] -> (forall pw, In pw used -> eps * Rabs (snd pw) < Rabs W) ->
     co (wbarycenter n (map f c) w) i = co (f (wbarycenter n c w)) i) /\
  (forall p q d, co (midpoint n (f p) (f q) d) i = co (f (midpoint n p q d)) i).
Proof.
  intros Af Hi. split; [|split].
  - intros [|p rest] H; [congruence|]. apply mean_affine; auto.
  - cbn zeta. intros c w He Hne H.
    assert (Sm : lsum snd (combine (map f c) w) = lsum snd (combine c w)).
    { rewrite combine_map_l, lsum_map. apply lsum_ext; auto. }
    destruct (wbary_good eps n (map f c) w He) as [_ E].
    + rewrite combine_map_l. intros Z. apply Hne. apply map_eq_nil in Z. auto.
    + intros pw Hin. rewrite Sm. rewrite combine_map_l in Hin. apply in_map_iff in Hin as (pw' & <- & Hin).
      cbn [snd]. apply H; auto.
    + rewrite E by auto. rewrite combine_map_l. apply (wmean_affine n); auto.
      * intros Z. destruct (combine c w) as [|pw l] eqn:Ec; [congruence|].
        specialize (H pw (or_introl eq_refl)). rewrite Z, Rabs_R0 in H.
        pose proof (Rabs_pos (snd pw)). nra.
      * apply (wbary_good eps n c w He); auto.
  - intros. apply mid_affine; auto.
Qed.

Lemma distance0_metric n (p q r v : coords R) :
  @distance R (Rnum 0) n p q = dist n (co p) (co q) /\
  @distance R (Rnum 0) n p r <= @distance R (Rnum 0) n p q + @distance R (Rnum 0) n q r /\
  (@distance R (Rnum 0) n p q = 0 <-> forall i, (i < n)%nat -> co p i = co q i) /\
  @distance R (Rnum 0) n (vec_add (H := Rnum 0) n p v) (vec_add (H := Rnum 0) n q v) = @distance R (Rnum 0) n p q.
Proof.
  split; [apply distance0|]. split; [rewrite !distance0; apply dist_triangle|]. split; [apply distance0_zero|].
  rewrite !distance0. unfold dist. f_equal. apply Rsum_ext. intros i Hi.
  destruct (vec_coordinates 0 n p v 0 i Hi) as (-> & _). destruct (vec_coordinates 0 n q v 0 i Hi) as (-> & _). ring.
Qed.

Lemma zero_distance_close (eps : Epsilon) n (p q : coords R) A B :
  0 <= (eps : R) -> dims n p -> dims n q -> nonzero n p -> nonzero n q -> bounded_by n p A -> bounded_by n q B ->
  distance n p q = 0 -> dist2 n (co p) (co q) <= 2 * eps * Rmin A B.
Proof.
  intros. apply dist_zero_iff in H6; auto. pose proof (arr_bound eps n p q A B eps H H0 H1 H2 H3 H4 H5).
  pose proof (arr_nonneg eps (el p) (el q) eps H). lra.
Qed.
