(** Proofs for C17 (refutation), C37, C38 and C55. *)
From Coq Require Import Reals Lra Lia List Bool Psatz ZArith SpecFloat.
From Flocq Require Import Core.Zaux Core.Raux.
From Verif Require Import Base Scalar ConstModel ConstSpec VecModel RSpec RLib OrdLib B64Lib ConstProofs VecSpec VecProofs VecProofs2.
Import ListNotations.
Open Scope R_scope.

(** ** C17: the clamp acts on Dot(v,v) for short vectors *)
Section Short.
Context (eps : Epsilon).
Variable n : nat.

Definition axis_vec (x : R) : coords R := mkC (tab n (fun i => if Nat.eqb i 0 then x else 0)) true.

Lemma axis_norm2 x : (0 < n)%nat -> norm2 n (co (axis_vec x)) = x * x.
Proof.
  intros Hn. unfold norm2, inner.
  rewrite (Rsum_ext n _ (fun i => delta i 0%nat * (x * x))).
  - rewrite Rsum_delta_l' by auto. reflexivity.
  - intros i Hi. unfold axis_vec. rewrite co_tab by auto. unfold delta. destruct (Nat.eqb i 0); ring.
Qed.

Lemma axis_max x : (0 < n)%nat -> 0 < x -> max_abs (el (axis_vec x)) = x.
Proof.
  intros Hn Hx. apply max_abs_unique; [lra| |right; exists x; split].
  - intros y Hy. unfold axis_vec in Hy. simpl in Hy. apply in_tab in Hy as (i & Hi & ->).
    destruct (Nat.eqb i 0); [rewrite Rabs_pos_eq by lra|rewrite Rabs_R0]; lra.
  - unfold axis_vec. simpl. apply in_tab. exists 0%nat. auto.
  - rewrite Rabs_pos_eq; lra.
Qed.

Lemma dot_self_short : (0 < n)%nat -> 0 < (eps : R) ->
  let v := axis_vec (eps / 2) in dot n v v = 0 /\ 0 < sqr_mag n v.
Proof.
  intros Hn He v. rewrite sqr_mag_norm2, dot_def. fold (norm2 n (co v)). unfold v. rewrite axis_norm2 by auto.
  split; [|nra]. rewrite Rle_bool_false; auto.
  unfold scale_eps_arr. rewrite axis_max by (auto; lra).
  pose proof (scale_eps_bounds eps (eps / 2) (eps / 2) eps ltac:(lra) ltac:(lra) ltac:(lra)) as [L _].
  rewrite Rmin_left, Rabs_pos_eq in L by lra. rewrite Rabs_pos_eq by nra. nra.
Qed.
End Short.

(** ** Distance *)
Section Dist.
Context (eps : Epsilon).
Variable n : nat.

Lemma sqd_def (p q : coords R) : squared_distance n p q =
  if Rle_bool (scale_eps_arr (el p) (el q) eps) (dist2 n (co p) (co q)) then dist2 n (co p) (co q) else 0.
Proof.
  unfold squared_distance. cbn [nleb neps Rnum].
  replace (nsum n (fun i => let diff := (at_ p i - at_ q i)%num in (diff * diff)%num)) with (dist2 n (co p) (co q)).
  - cbn [nabs Rnum]. rewrite Rabs_pos_eq by apply norm2_nonneg. reflexivity.
  - rewrite nsum_Rsum. apply Rsum_ext. intros. toco. reflexivity.
Qed.

Lemma dist2_sym (a b : nat -> R) : dist2 n a b = dist2 n b a.
Proof. unfold dist2, norm2. apply Rsum_ext. intros. ring. Qed.
Lemma sqd_sym (p q : coords R) : squared_distance n p q = squared_distance n q p.
Proof. rewrite !sqd_def, arr_sym, (dist2_sym (co p)). reflexivity. Qed.
Lemma sqd_nonneg (p q : coords R) : 0 <= squared_distance n p q.
Proof. rewrite sqd_def. destruct (Rle_bool _ _); [apply norm2_nonneg|lra]. Qed.
Lemma sqd_exact_or_zero (p q : coords R) :
  squared_distance n p q = dist2 n (co p) (co q) \/ squared_distance n p q = 0.
Proof. rewrite sqd_def. destruct (Rle_bool _ _); auto. Qed.

Lemma arr_zero_l (a b : coords R) e : (forall i, (i < n)%nat -> co a i = 0) -> dims n a ->
  scale_eps_arr (el a) (el b) e = e.
Proof.
  intros H D. apply scale_eps_zero. left. apply max_abs_zero. intros x Hx.
  apply (In_nth _ _ 0) in Hx as (j & Hj & <-). apply H. rewrite <- D. auto.
Qed.

Lemma nonzero_max (v : coords R) : dims n v -> nonzero n v -> max_abs (el v) <> 0.
Proof.
  intros D (i & Hi & H) E. apply H. apply (proj1 (max_abs_zero eps (el v)) E). unfold co. apply nth_In. rewrite D; auto.
Qed.

Lemma arr_bound (a b : coords R) A B e : 0 <= e -> dims n a -> dims n b -> nonzero n a -> nonzero n b ->
  bounded_by n a A -> bounded_by n b B -> scale_eps_arr (el a) (el b) e <= 2 * e * Rmin A B.
Proof.
  intros He Da Db Na Nb BA BB.
  assert (Pn : (0 < n)%nat) by (destruct Na as (i & Hi & _); lia).
  pose proof (nonzero_max a Da Na). pose proof (nonzero_max b Db Nb).
  pose proof (scale_eps_bounds eps _ _ e He H H0) as [_ U]. eapply Rle_trans; [exact U|].
  apply Rmult_le_compat_l; [lra|].
  pose proof (max_abs_bound eps n a A Da BA ltac:(eapply bounded_nonneg; eauto)).
  pose proof (max_abs_bound eps n b B Db BB ltac:(eapply bounded_nonneg; eauto)).
  pose proof (max_abs_nonneg eps (el a)). pose proof (max_abs_nonneg eps (el b)).
  rewrite !Rabs_pos_eq by auto.
  apply Rmin_glb; [eapply Rle_trans; [apply Rmin_l|auto]|eapply Rle_trans; [apply Rmin_r|auto]].
Qed.

Lemma sqd_error (p q : coords R) A B : 0 <= (eps : R) -> dims n p -> dims n q -> nonzero n p -> nonzero n q ->
  bounded_by n p A -> bounded_by n q B ->
  Rabs (squared_distance n p q - dist2 n (co p) (co q)) <= 2 * eps * Rmin A B.
Proof.
  intros. rewrite sqd_def.
  pose proof (arr_bound p q A B eps H H0 H1 H2 H3 H4 H5) as U.
  pose proof (arr_nonneg eps (el p) (el q) eps H).
  pose proof (norm2_nonneg n (fun i => co p i - co q i)) as N.
  destruct (Rle_bool_spec (scale_eps_arr (el p) (el q) eps) (dist2 n (co p) (co q))).
  - rewrite Rminus_diag_eq, Rabs_R0 by auto. lra.
  - unfold Rminus. rewrite Rplus_0_l, Rabs_Ropp, Rabs_pos_eq; [lra|]. exact N.
Qed.
Lemma sqd_error_origin (p q : coords R) : 0 <= (eps : R) -> dims n p -> (forall i, (i < n)%nat -> co p i = 0) ->
  Rabs (squared_distance n p q - dist2 n (co p) (co q)) <= eps.
Proof.
  intros. rewrite sqd_def. rewrite arr_zero_l by auto.
  pose proof (norm2_nonneg n (fun i => co p i - co q i)) as N.
  destruct (Rle_bool_spec eps (dist2 n (co p) (co q))).
  - rewrite Rminus_diag_eq, Rabs_R0 by auto. lra.
  - unfold Rminus. rewrite Rplus_0_l, Rabs_Ropp, Rabs_pos_eq; [lra|]. exact N.
Qed.
Lemma sqd_exact_far (p q : coords R) A B : 0 <= (eps : R) -> dims n p -> dims n q -> nonzero n p -> nonzero n q ->
  bounded_by n p A -> bounded_by n q B -> 2 * eps * Rmin A B <= dist2 n (co p) (co q) ->
  squared_distance n p q = dist2 n (co p) (co q).
Proof.
  intros. rewrite sqd_def. pose proof (arr_bound p q A B eps H H0 H1 H2 H3 H4 H5).
  rewrite Rle_bool_true; auto. lra.
Qed.

Lemma dist_zero_iff (p q : coords R) : 0 <= (eps : R) ->
  (distance n p q = 0 <-> dist2 n (co p) (co q) = 0 \/ dist2 n (co p) (co q) < scale_eps_arr (el p) (el q) eps).
Proof.
  intros He. unfold distance. cbn [nsqrt Rnum].
  pose proof (norm2_nonneg n (fun i => co p i - co q i)) as N. fold (dist2 n (co p) (co q)) in N.
  split.
  - intros E. apply sqrt_eq_0 in E; [|apply sqd_nonneg]. rewrite sqd_def in E.
    destruct (Rle_bool_spec (scale_eps_arr (el p) (el q) eps) (dist2 n (co p) (co q))); auto.
  - intros [E|E]; rewrite sqd_def.
    + rewrite E. destruct (Rle_bool _ _); apply sqrt_0.
    + rewrite Rle_bool_false by auto. apply sqrt_0.
Qed.
End Dist.

Section Dist0.
Variable n : nat.
#[local] Instance zero_eps' : Epsilon := 0.
Lemma distance0 (p q : coords R) : @distance R (Rnum 0) n p q = dist n (co p) (co q).
Proof.
  unfold distance. cbn [nsqrt Rnum]. rewrite (sqd_def 0). unfold scale_eps_arr.
  rewrite (scale_eps_eps0 0). rewrite Rle_bool_true by apply norm2_nonneg. reflexivity.
Qed.
Lemma distance0_zero (p q : coords R) : @distance R (Rnum 0) n p q = 0 <-> forall i, (i < n)%nat -> co p i = co q i.
Proof.
  rewrite distance0. unfold dist, norm. split.
  - intros E i Hi. apply sqrt_eq_0 in E; [|apply norm2_nonneg].
    pose proof (norm2_zero n _ E i Hi). cbn beta in *. lra.
  - intros E. replace (dist2 n (co p) (co q)) with 0; [apply sqrt_0|].
    symmetry. apply Rsum_zero. intros. rewrite E by auto. ring.
Qed.
End Dist0.

(** ** Barycenter and Midpoint *)
Section Bary.
Context (eps : Epsilon).
Variable n : nat.

Lemma bary_fold (rest : list (coords R)) : forall acc k ok,
  let r := fold_left (fun (st : list R * R * bool) q =>
             let '(acc, m, ok) := st in
             (tab n (fun j => (get acc j + at_ q j)%num), (m + n1)%num, ok && valid q)) rest (acc, k, ok) in
  snd (fst r) = k + INR (length rest) /\ snd r = ok && forallb valid rest /\
  forall j, (j < n)%nat -> nth j (fst (fst r)) 0 = nth j acc 0 + lsum (fun p => co p j) rest.
Proof.
  induction rest as [|q rest IH]; intros acc k ok; cbn [fold_left].
  - simpl. rewrite andb_true_r, Rplus_0_r. split; [|split]; auto. intros. ring.
  - specialize (IH (tab n (fun j => (get acc j + at_ q j)%num)) (k + n1)%num (ok && valid q)).
    cbv zeta in IH |- *. destruct IH as (A & B & C). rewrite A, B. split; [|split].
    + cbn [length]. rewrite S_INR. unfold n1. cbn [nadd nofZ Rnum]. ring.
    + cbn [forallb]. rewrite andb_assoc. reflexivity.
    + intros j Hj. rewrite C by auto. rewrite nth_tab by auto. cbn [lsum].
      unfold get, at_, co, get. cbn [nadd Rnum]. change (@n0 R (Rnum eps)) with 0. ring.
Qed.

Lemma bary_mean (p : coords R) rest i : (i < n)%nat ->
  co (barycenter n (p :: rest)) i = mean_coord (p :: rest) i.
Proof.
  intros Hi. cbn [barycenter]. destruct (bary_fold rest (el p) n1 (valid p)) as (A & B & C).
  destruct (fold_left _ _ _) as [[acc m] ok]. cbn [fst snd] in *. rewrite co_tab by auto.
  unfold get. change (@n0 R (Rnum eps)) with 0. rewrite C, A by auto.
  unfold mean_coord, Rdiv. cbn [lsum length]. rewrite S_INR. unfold n1. cbn [ndiv nofZ Rnum].
  unfold Rdiv. rewrite (Rplus_comm 1). reflexivity.
Qed.
Lemma bary_valid (p : coords R) rest : valid (barycenter n (p :: rest)) = forallb valid (p :: rest).
Proof.
  cbn [barycenter]. destruct (bary_fold rest (el p) n1 (valid p)) as (A & B & C).
  destruct (fold_left _ _ _) as [[acc m] ok]. cbn [fst snd] in *. simpl. auto.
Qed.
Lemma bary_dims c : dims n (barycenter n c).
Proof.
  destruct c as [|p rest]; cbn [barycenter]; [apply dims_tab|].
  destruct (fold_left _ _ _) as [[acc m] ok]. apply dims_tab.
Qed.

(** the weighted form *)
Lemma wbary_fold (rest : list (coords R * R)) : forall acc tw mw ok,
  let r := fold_left (fun (st : list R * R * R * bool) qw =>
                   let '(acc, tw, mw, ok) := st in
                   let (q, wi) := (qw : coords R * R) in
                   (tab n (fun j => (get acc j + at_ q j * wi)%num), (tw + wi)%num,
                    (if (nabs wi >? mw)%num then nabs wi else mw), ok && valid q))
                 rest (acc, tw, mw, ok) in
  snd (fst (fst r)) = tw + lsum snd rest /\ snd r = ok && forallb (fun pw => valid (fst pw)) rest /\
  (forall j, (j < n)%nat -> nth j (fst (fst (fst r))) 0 = nth j acc 0 + lsum (fun pw => co (fst pw) j * snd pw) rest) /\
  mw <= snd (fst r) /\ (forall pw, In pw rest -> Rabs (snd pw) <= snd (fst r)) /\
  (snd (fst r) = mw \/ exists pw, In pw rest /\ snd (fst r) = Rabs (snd pw)).
Proof.
  induction rest as [|[q w] rest IH]; intros acc tw mw ok; cbn [fold_left].
  - simpl. rewrite andb_true_r, Rplus_0_r. repeat split; auto; try lra; try tauto. intros. ring.
  - specialize (IH (tab n (fun j => (get acc j + at_ q j * w)%num)) (tw + w)%num
        (if (nabs w >? mw)%num then nabs w else mw) (ok && valid q)).
    cbv zeta in IH |- *. destruct IH as (A & B & C & D & E & F). rewrite A, B.
    cbn [nltb nabs Rnum] in *.
    assert (M : mw <= (if Rlt_bool mw (Rabs w) then Rabs w else mw) /\ Rabs w <= (if Rlt_bool mw (Rabs w) then Rabs w else mw)).
    { destruct (Rlt_bool_spec mw (Rabs w)); lra. }
    split; [|split; [|split; [|split; [|split]]]].
    + cbn [lsum snd]. cbn [nadd Rnum]. ring.
    + cbn [forallb fst]. rewrite andb_assoc. reflexivity.
    + intros j Hj. rewrite C by auto. rewrite nth_tab by auto. cbn [lsum fst snd].
      unfold get, at_, co, get. cbn [nadd nmul Rnum]. change (@n0 R (Rnum eps)) with 0. ring.
    + lra.
    + intros pw [<-|Hin]; [cbn [snd]; lra|auto].
    + destruct F as [F|(pw & Hin & F)].
      * rewrite F. destruct (Rlt_bool_spec mw (Rabs w)); auto. right. exists (q, w). split; [left|]; auto.
      * right. exists pw. split; [right|]; auto.
Qed.

Lemma wbary_spec (p : coords R) c w0 w :
  let cw := combine (p :: c) (w0 :: w) in let W := lsum snd cw in
  0 <= (eps : R) ->
  ((forall pw, In pw cw -> eps * Rabs (snd pw) < Rabs W) ->
     valid (wbarycenter n (p :: c) (w0 :: w)) = forallb (fun pw => valid (fst pw)) cw /\
     forall i, (i < n)%nat -> co (wbarycenter n (p :: c) (w0 :: w)) i = wmean_coord cw i) /\
  ((exists pw, In pw cw /\ Rabs W <= eps * Rabs (snd pw)) -> valid (wbarycenter n (p :: c) (w0 :: w)) = false).
Proof.
  cbn zeta. intros He. cbn [wbarycenter combine].
  destruct (wbary_fold (combine c w) (tab n (fun j => (at_ p j * w0)%num)) w0 (nabs w0) (valid p)) as (A & B & C & D & E & F).
  destruct (fold_left _ _ _) as [[[acc tw] mw] ok]. cbn [fst snd] in *.
  cbn [lsum snd]. cbn [nleb nabs neps nmul ndiv Rnum] in *. change (@n0 R (Rnum eps)) with 0 in *. rewrite <- A.
  split.
  - intros H.
    assert (P0 : eps * Rabs w0 < Rabs tw) by (apply (H (p, w0)); left; auto).
    assert (L : mw * eps < Rabs tw).
    { destruct F as [->|(pw & Hin & ->)]; [|specialize (H pw (or_intror Hin))]; lra. }
    assert (P1 : 0 < mw).
    { destruct (Rle_or_lt mw 0) as [Hm|Hm]; auto. exfalso.
      assert (Z0 : w0 = 0). { pose proof (Rabs_pos w0). destruct (Req_dec w0 0); auto. apply Rabs_pos_lt in H1. lra. }
      assert (Zs : lsum snd (combine c w) = 0).
      { clear - E Hm. induction (combine c w) as [|x l IH]; simpl; auto.
        rewrite IH by (intros; apply E; right; auto). specialize (E x (or_introl eq_refl)).
        pose proof (Rabs_pos (snd x)). destruct (Req_dec (snd x) 0); [lra|]. apply Rabs_pos_lt in H0. lra. }
      rewrite Zs, Z0 in A. rewrite A in P0. rewrite Z0, Rplus_0_r, Rabs_R0 in P0. lra. }
    rewrite Rle_bool_false by auto. rewrite Rle_bool_false by auto. cbn [orb]. split; auto.
    intros i Hi. rewrite co_tab by auto. unfold wmean_coord. cbn [lsum snd fst]. rewrite <- A.
    unfold get. change (@n0 R (Rnum eps)) with 0. rewrite C by auto. rewrite nth_tab by auto.
    unfold at_, get, co. change (@n0 R (Rnum eps)) with 0. reflexivity.
  - intros (pw & Hin & H).
    assert (Rabs (snd pw) <= mw) by (destruct Hin as [<-|Hin]; auto).
    rewrite (Rle_bool_true (Rabs tw)); [rewrite orb_true_r; reflexivity|].
    rewrite Rmult_comm. eapply Rle_trans; [exact H|]. apply Rmult_le_compat_l; auto.
Qed.
Lemma wbary_empty c w : c = [] \/ w = [] -> valid (wbarycenter n c w) = false.
Proof. intros [->| ->]; [reflexivity|destruct c; reflexivity]. Qed.

(** affine combinations stay between coordinate bounds *)
Lemma lsum_le {A} (f g : A -> R) l : (forall x, In x l -> f x <= g x) -> lsum f l <= lsum g l.
Proof.
  induction l as [|x l IH]; simpl; intros H; [lra|].
  specialize (IH (fun y Hy => H y (or_intror Hy))). specialize (H x (or_introl eq_refl)). lra.
Qed.
Lemma lsum_scal {A} (f : A -> R) k l : lsum (fun x => k * f x) l = k * lsum f l.
Proof. induction l as [|x l IH]; simpl; [ring|rewrite IH; ring]. Qed.
Lemma lsum_plus {A} (f g : A -> R) l : lsum (fun x => f x + g x) l = lsum f l + lsum g l.
Proof. induction l as [|x l IH]; simpl; [ring|rewrite IH; ring]. Qed.
Lemma lsum_const {A} k (l : list A) : lsum (fun _ => k) l = INR (length l) * k.
Proof. induction l as [|x l IH]; [simpl; ring|]. cbn [lsum length]. rewrite S_INR, IH. ring. Qed.
Lemma lsum_ext {A} (f g : A -> R) l : (forall x, In x l -> f x = g x) -> lsum f l = lsum g l.
Proof.
  induction l as [|x l IH]; simpl; intros H; auto. rewrite (IH (fun y Hy => H y (or_intror Hy))), H; auto.
Qed.
Lemma lsum_map {A B} (h : B -> A) (f : A -> R) l : lsum f (map h l) = lsum (fun x => f (h x)) l.
Proof. induction l as [|x l IH]; simpl; auto. rewrite IH; auto. Qed.
Lemma lsum_Rsum {A} (f : A -> nat -> R) m l : lsum (fun x => Rsum m (f x)) l = Rsum m (fun j => lsum (fun x => f x j) l).
Proof.
  induction l as [|x l IH]; simpl.
  - symmetry. apply Rsum_zero. auto.
  - rewrite IH, <- Rsum_plus. reflexivity.
Qed.

Lemma INR_len_pos {A} (x : A) l : 0 < INR (length (x :: l)).
Proof. apply lt_0_INR. simpl. lia. Qed.

Lemma bary_in_box (p : coords R) rest i lo hi : (i < n)%nat ->
  (forall q, In q (p :: rest) -> lo <= co q i <= hi) ->
  lo <= co (barycenter n (p :: rest)) i <= hi.
Proof.
  intros Hi H. rewrite bary_mean by auto. unfold mean_coord. pose proof (INR_len_pos p rest) as P.
  pose proof (lsum_le (fun _ => lo) (fun q => co q i) (p :: rest) (fun q Hq => proj1 (H q Hq))) as L.
  pose proof (lsum_le (fun q => co q i) (fun _ => hi) (p :: rest) (fun q Hq => proj2 (H q Hq))) as U.
  rewrite lsum_const in L, U.
  split; apply (Rmult_le_reg_r (INR (length (p :: rest)))); auto; unfold Rdiv; rewrite Rmult_assoc, Rinv_l by lra; lra.
Qed.
Lemma wmean_in_box (cw : list (coords R * R)) i lo hi : 0 < lsum snd cw ->
  (forall pw, In pw cw -> 0 <= snd pw /\ lo <= co (fst pw) i <= hi) ->
  lo <= wmean_coord cw i <= hi.
Proof.
  intros P H. unfold wmean_coord.
  assert (L : lsum (fun pw => lo * snd pw) cw <= lsum (fun pw => co (fst pw) i * snd pw) cw).
  { apply lsum_le. intros pw Hin. destruct (H pw Hin). apply Rmult_le_compat_r; lra. }
  assert (U : lsum (fun pw => co (fst pw) i * snd pw) cw <= lsum (fun pw => hi * snd pw) cw).
  { apply lsum_le. intros pw Hin. destruct (H pw Hin). apply Rmult_le_compat_r; lra. }
  rewrite lsum_scal in L, U.
  split; apply (Rmult_le_reg_r (lsum snd cw)); auto; unfold Rdiv; rewrite Rmult_assoc, Rinv_l by lra; lra.
Qed.

(** and commute with affine maps *)
Lemma mean_affine (p : coords R) rest f i : affine n f -> (i < n)%nat ->
  co (barycenter n (map f (p :: rest))) i = co (f (barycenter n (p :: rest))) i.
Proof.
  intros (A & b & H) Hi. cbn [map]. rewrite bary_mean by auto. rewrite H by auto.
  unfold mean_coord. change (f p :: map f rest) with (map f (p :: rest)). rewrite lsum_map, map_length.
  rewrite (lsum_ext _ (fun q => Rsum n (fun j => A i j * co q j) + b i)) by (intros; apply H; auto).
  rewrite lsum_plus, lsum_const, lsum_Rsum.
  rewrite (Rsum_ext n (fun j => A i j * co (barycenter n (p :: rest)) j) (fun j => lsum (fun q => A i j * co q j) (p :: rest) * / INR (length (p :: rest)))).
  - rewrite Rsum_scal_r. pose proof (INR_len_pos p rest). field. lra.
  - intros j Hj. rewrite bary_mean by auto. unfold mean_coord. rewrite lsum_scal. unfold Rdiv. ring.
Qed.
Lemma wmean_affine (cw : list (coords R * R)) f g i : affine n f -> lsum snd cw <> 0 ->
  (forall j, (j < n)%nat -> co g j = wmean_coord cw j) -> (i < n)%nat ->
  wmean_coord (map (fun pw => (f (fst pw), snd pw)) cw) i = co (f g) i.
Proof.
  intros (A & b & H) W G Hi. rewrite H by auto. unfold wmean_coord. rewrite !lsum_map. cbn [fst snd].
  rewrite (lsum_ext _ (fun pw => Rsum n (fun j => A i j * co (fst pw) j * snd pw) + b i * snd pw)).
  - rewrite lsum_plus, lsum_scal, lsum_Rsum.
    rewrite (Rsum_ext n (fun j => A i j * co g j) (fun j => lsum (fun pw => A i j * co (fst pw) j * snd pw) cw * / lsum snd cw)).
    + rewrite Rsum_scal_r. replace (lsum (fun x : coords R * R => snd x) cw) with (lsum snd cw) by (apply lsum_ext; auto).
      field. auto.
    + intros j Hj. rewrite G by auto. unfold wmean_coord.
      rewrite (lsum_ext (fun pw => A i j * co (fst pw) j * snd pw) (fun pw => A i j * (co (fst pw) j * snd pw))) by (intros; ring).
      rewrite lsum_scal. unfold Rdiv. ring.
  - intros pw _. rewrite H by auto. rewrite Rsum_scal_r. ring.
Qed.

Lemma mid_co (p q : coords R) d i : (i < n)%nat -> co (midpoint n p q d) i = (1 - d) * co p i + d * co q i.
Proof. intros. unfold midpoint. rewrite co_tab by auto. toco. unfold n1. cbn [nofZ Rnum]. ring. Qed.
Lemma mid_in_box (p q : coords R) d i : (i < n)%nat -> 0 <= d <= 1 ->
  Rmin (co p i) (co q i) <= co (midpoint n p q d) i <= Rmax (co p i) (co q i).
Proof.
  intros Hi Hd. rewrite mid_co by auto. unfold Rmin, Rmax. destruct (Rle_dec (co p i) (co q i)); split; nra.
Qed.
Lemma mid_affine (p q : coords R) d f i : affine n f -> (i < n)%nat ->
  co (midpoint n (f p) (f q) d) i = co (f (midpoint n p q d)) i.
Proof.
  intros (A & b & H) Hi. rewrite mid_co, !H by auto.
  rewrite (Rsum_ext n (fun j => A i j * co (midpoint n p q d) j) (fun j => (1 - d) * (A i j * co p j) + d * (A i j * co q j))).
  - rewrite Rsum_plus, !Rsum_scal_l. ring.
  - intros. rewrite mid_co by auto. ring.
Qed.
Lemma shift_affine (v : coords R) : affine n (fun p => vec_add n p v).
Proof.
  exists delta, (co v). intros p i Hi. rewrite Rsum_delta_l by auto.
  unfold vec_add. rewrite co_tab by auto. toco. reflexivity.
Qed.
End Bary.

(** ** isEqualTo of vectors and points *)
Section VEq.
Context (eps : Epsilon).
Variable n : nat.

Lemma vec_equal_iff (a b : coords R) e : vec_equal n a b e = true <->
  valid a = true /\ valid b = true /\
  forall i, (i < n)%nat -> Rabs (co a i - co b i) <= scale_eps_arr (el a) (el b) e.
Proof.
  unfold vec_equal. destruct (valid b), (valid a); cbn [negb orb]; try (split; [discriminate|intros (A & B & _); discriminate]).
  rewrite all_below_iff. split.
  - intros H. repeat split; auto. intros i Hi. specialize (H i Hi). apply negb_true_iff in H.
    cbn [nltb nabs nsub Rnum] in H. apply Rltb_false in H. exact H.
  - intros (_ & _ & H) i Hi. apply negb_true_iff. cbn [nltb nabs nsub Rnum]. apply Rltb_false. apply H; auto.
Qed.
Lemma vec_equal_refl (a : coords R) e : 0 <= e -> valid a = true -> vec_equal n a a e = true.
Proof.
  intros He V. apply vec_equal_iff. repeat split; auto. intros. rewrite Rminus_diag_eq, Rabs_R0 by auto.
  apply arr_nonneg; auto.
Qed.
Lemma vec_equal_bound (a b : coords R) A B e i : 0 <= e -> dims n a -> dims n b -> nonzero n a -> nonzero n b ->
  bounded_by n a A -> bounded_by n b B -> vec_equal n a b e = true -> (i < n)%nat ->
  Rabs (co a i - co b i) <= 2 * e * Rmin A B.
Proof.
  intros. apply vec_equal_iff in H6 as (_ & _ & H6). specialize (H6 i H7).
  eapply Rle_trans; [exact H6|]. apply (arr_bound eps n); auto.
Qed.
Lemma vec_equal_mono (a b : coords R) e e' : e <= e' -> vec_equal n a b e = true -> vec_equal n a b e' = true.
Proof.
  intros He. rewrite !vec_equal_iff. intros (A & B & C). repeat split; auto. intros i Hi.
  eapply Rle_trans; [apply C; auto|]. apply scale_eps_mono; auto.
Qed.
Lemma vec_equal_exact (a b : coords R) : dims n a -> dims n b ->
  (vec_equal n a b 0 = true <-> a = b /\ valid a = true).
Proof.
  intros Da Db. rewrite vec_equal_iff. unfold scale_eps_arr. rewrite scale_eps_eps0. split.
  - intros (A & B & C). split; auto. apply (coords_eq n); auto; try congruence.
    intros i Hi. specialize (C i Hi). pose proof (Rabs_pos (co a i - co b i)).
    destruct (Req_dec (co a i - co b i) 0); [lra|]. apply Rabs_pos_lt in H0. lra.
  - intros (-> & V). repeat split; auto. intros. rewrite Rminus_diag_eq, Rabs_R0 by auto. lra.
Qed.
End VEq.

(** doubles *)
Section VEqB.
Variable m : libm.
#[local] Instance I64 : Num spec_float := B64 m.

Lemma max_abs_b64 (l : list spec_float) : max_abs (H := B64 m) l <> S754_nan.
Proof.
  unfold max_abs.
  assert (G : forall acc, acc <> S754_nan ->
    fold_left (fun acc x => if (nabs (Num := B64 m) x >? acc)%num then nabs (Num := B64 m) x else acc) l acc <> S754_nan).
  { induction l as [|x l IH]; intros acc Hacc; cbn [fold_left]; auto. apply IH.
    cbn [nltb nabs B64 I64]. destruct (SFltb acc (SFabs x)) eqn:E; auto.
    destruct x; cbn [SFabs]; try discriminate. exfalso. destruct acc as [[]|[]| |[] ? ?]; vm_compute in E; discriminate E. }
  apply G. cbn. discriminate.
Qed.

Lemma vec_equal_b64_sym n a b e : vec_equal (H := B64 m) n a b e = vec_equal (H := B64 m) n b a e.
Proof.
  unfold vec_equal. rewrite (orb_comm (negb (valid b))).
  destruct (negb (valid a) || negb (valid b)); auto.
  unfold scale_eps_arr. rewrite scale_eps_b64_sym by apply max_abs_b64.
  apply all_below_ext. intros i Hi. cbn [nabs nsub B64]. rewrite abs_sub_sym. reflexivity.
Qed.
Lemma vec_equal_b64_refl n (a : coords spec_float) e : dims n a -> valid a = true -> Forall finite_double (el a) ->
  tolerance e -> vec_equal (H := B64 m) n a a e = true.
Proof.
  intros D V F Te. unfold vec_equal. rewrite V. cbn [negb orb]. apply all_below_iff. intros i Hi.
  apply negb_true_iff. cbn [nabs nsub nltb B64].
  rewrite abs_sub_same.
  - unfold scale_eps_arr, scale_eps. cbn [nldexp B64].
    match goal with |- context [SFldexp prec64 emax64 e ?k] => assert (N : nonneg (SFldexp prec64 emax64 e k)) by
      (apply SFldexp_nonneg; [apply Te|]; exact (proj2 Te)); generalize dependent (SFldexp prec64 emax64 e k) end.
    intros d N. destruct d as [[]|[]| |[] ? ?]; vm_compute in N; try discriminate N; reflexivity.
  - apply finite_double_finite. rewrite Forall_forall in F. apply F. unfold at_, get. apply nth_In. rewrite D. auto.
Qed.
End VEqB.
