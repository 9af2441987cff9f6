(** The arrays of the basis: invariants and the effect of push. *)
From Coq Require Import Reals List Lra Lia Bool.
From Flocq Require Import Core.Raux.
From Verif Require Import Base Scalar RSpec RLib MatLib VecProofs4 MiniballModel MiniballSpec MiniballProofs.
Import ListNotations.
Open Scope R_scope.

Lemma combine_weights a b : forall (u w : list (R * list R)), map snd u = map snd w ->
  exists t, map snd t = map snd u /\ total t = a * total u + b * total w /\ forall i, weighted t i = a * weighted u i + b * weighted w i.
Proof.
  induction u as [|x u IH]; intros [|y w] E; try discriminate.
  - exists []. cbn. split; [auto|split; [|intros i]; ring].
  - cbn in E. injection E as E1 E2. destruct (IH w E2) as (t & T1 & T2 & T3). exists ((a * fst x + b * fst y, snd x) :: t). cbn [map snd]. split; [f_equal; auto|]. split.
    + rewrite !total_cons, T2. cbn [fst]. ring.
    + intros i. rewrite !weighted_cons, T3. cbn [fst snd]. rewrite E1. ring.
Qed.
Lemma unit_weight : forall (l : list (list R)) k, (k < length l)%nat -> exists w, map snd w = l /\ total w = 1 /\ forall i, weighted w i = pc (nth k l []) i.
Proof.
  assert (Z : forall l : list (list R), exists w, map snd w = l /\ total w = 0 /\ forall i, weighted w i = 0).
  { induction l as [|x l (w & W1 & W2 & W3)]; [exists []; cbn; auto|]. exists ((0, x) :: w). cbn [map snd]. rewrite W1. split; auto. split; [rewrite total_cons, W2; cbn; ring|]. intros i. rewrite weighted_cons, W3. cbn. ring. }
  induction l as [|x l IH]; intros k K; [cbn in K; lia|]. destruct k as [|k].
  - destruct (Z l) as (w & W1 & W2 & W3). exists ((1, x) :: w). cbn [map snd]. rewrite W1. split; auto. split; [rewrite total_cons, W2; cbn; ring|]. intros i. rewrite weighted_cons, W3. cbn. ring.
  - destruct (IH k) as (w & W1 & W2 & W3); [cbn in K; lia|]. exists ((0, x) :: w). cbn [map snd nth]. rewrite W1. split; auto. split; [rewrite total_cons, W2; cbn; ring|]. intros i. rewrite weighted_cons, W3. cbn [fst snd]. ring.
Qed.

Section Basis.
Context (eps : Epsilon).
Variable d : nat.
Variable tau : R.
Notation basis := (basis R).
Local Notation V b i := (pc (row (bv b) i)).
Local Notation C b i := (pc (row (bc b) i)).
Local Notation Rr b i := (nth i (bsr b) 0).

(** y is a combination of the points with total weight 0. *)
Definition direction (l : list (list R)) (y : nat -> R) : Prop :=
  exists w, map snd w = l /\ total w = 0 /\ forall i, (i < d)%nat -> y i = weighted w i.

Lemma pad l l' : forall w : list (R * list R), map snd w = l -> exists t, map snd t = l ++ l' /\ total t = total w /\ forall i, weighted t i = weighted w i.
Proof. intros w <-. exists (w ++ map (fun p => (0, p)) l'). split; [|split].
  - rewrite map_app, map_map. cbn. now rewrite map_id.
  - rewrite total_app. assert (total (map (fun p => (0, p)) l') = 0); [|lra]. induction l'; [reflexivity|]. cbn [map]. rewrite total_cons, IHl'. cbn. ring.
  - intros i. rewrite weighted_app. assert (weighted (map (fun p => (0, p)) l') i = 0); [|lra]. induction l'; [reflexivity|]. cbn [map]. rewrite weighted_cons, IHl'. cbn. ring.
Qed.
Lemma affine_pad l l' x : in_affine d l x -> in_affine d (l ++ l') x.
Proof. intros (w & W1 & W2 & W3). destruct (pad l l' w W1) as (t & T1 & T2 & T3). exists t. split; auto. split; [lra|]. intros i Hi. rewrite T3; auto. Qed.
Lemma direction_pad l l' x : direction l x -> direction (l ++ l') x.
Proof. intros (w & W1 & W2 & W3). destruct (pad l l' w W1) as (t & T1 & T2 & T3). exists t. split; auto. split; [lra|]. intros i Hi. rewrite T3; auto. Qed.
Lemma affine_ext l x y : (forall i, (i < d)%nat -> x i = y i) -> in_affine d l x -> in_affine d l y.
Proof. intros E (w & W1 & W2 & W3). exists w. split; auto. split; auto. intros i Hi. rewrite <- E; auto. Qed.
Lemma affine_add l x y k : in_affine d l x -> direction l y -> in_affine d l (fun i => x i + k * y i).
Proof. intros (w & W1 & W2 & W3) (u & U1 & U2 & U3). destruct (combine_weights 1 k w u ltac:(congruence)) as (t & T1 & T2 & T3). exists t. split; [congruence|]. split; [rewrite T2, W2, U2; ring|]. intros i Hi. rewrite T3, W3, U3 by auto. ring. Qed.
Lemma direction_sub l x y : in_affine d l x -> in_affine d l y -> direction l (fun i => x i - y i).
Proof. intros (w & W1 & W2 & W3) (u & U1 & U2 & U3). destruct (combine_weights 1 (-1) w u ltac:(congruence)) as (t & T1 & T2 & T3). exists t. split; [congruence|]. split; [rewrite T2, W2, U2; ring|]. intros i Hi. rewrite T3, W3, U3 by auto. ring. Qed.
Lemma affine_member l k : (k < length l)%nat -> in_affine d l (pc (nth k l [])).
Proof. intros K. destruct (unit_weight l k K) as (w & W1 & W2 & W3). exists w. split; auto. Qed.
(** inner product with a vector for which all the points give the same value *)
Lemma affine_inner l x y k : in_affine d l x -> (forall q, In q l -> inner d (pc q) y = k) -> inner d x y = k.
Proof. intros (w & <- & W2 & W3) E. rewrite (inner_ext d x y (weighted w) y); auto. rewrite inner_weighted.
  assert (G : applied (fun x => inner d x y) w = k * total w); [|rewrite G, W2; ring]. clear W2 W3. induction w as [|a w IH]; [cbn; ring|].
  rewrite applied_cons, total_cons, IH, E; [ring|left; auto|]. intros q I. apply E. right. auto. Qed.
(** two balls that touch the same points have the same power on their affine hull *)
Lemma same_power l x c r c' r' : in_affine d l x -> touches d c r l -> touches d c' r' l -> pw d c r x = pw d c' r' x.
Proof. intros (w & <- & W2 & W3) T T'. pose proof (pw_diff_applied d c r c' r' w x W2 W3) as D. rewrite applied_0 in D; [lra|]. intros p I. rewrite (T p I), (T' p I). ring. Qed.

Record basis_ok (b : basis) (Bs : list (list R)) : Prop := mkOk {
  ok_len : length Bs = bm b;
  ok_le : (bm b <= S d)%nat;
  ok_lz : length (bz b) = S d; ok_lf : length (bf b) = S d; ok_lv : length (bv b) = S d;
  ok_la : length (ba b) = S d; ok_lc : length (bc b) = S d; ok_lr : length (bsr b) = S d;
  ok_q0 : (1 <= bm b)%nat -> forall i, (i < d)%nat -> pc (bq0 b) i = pc (nth 0 Bs []) i;
  ok_z : forall i, (1 <= i < bm b)%nat -> nth i (bz b) 0 = 2 * norm2 d (V b i) /\ 0 < norm2 d (V b i);
  ok_orth : forall i j, (1 <= i < bm b)%nat -> (1 <= j < bm b)%nat -> i <> j -> inner d (V b i) (V b j) = 0;
  ok_dual : forall k y, (k < bm b)%nat -> (forall i, (1 <= i <= k)%nat -> inner d (V b i) y = 0) -> inner d (pc (nth k Bs [])) y = inner d (pc (nth 0 Bs [])) y;
  ok_dir : forall i, (1 <= i < bm b)%nat -> direction (firstn (S i) Bs) (V b i);
  ok_c : forall k, (k < bm b)%nat -> in_affine d (firstn (S k) Bs) (C b k) /\ touches d (C b k) (Rr b k) (firstn (S k) Bs)
}.

Lemma reset_ok b : length (bz b) = S d -> length (bf b) = S d -> length (bv b) = S d -> length (ba b) = S d -> length (bc b) = S d -> length (bsr b) = S d ->
  basis_ok (basis_reset d b) [].
Proof. intros. constructor; cbn [bm basis_reset length bz bf bv ba bc bsr]; rewrite ?upd_length; auto; try lia; intros; exfalso; lia. Qed.
Lemma basis_make_ok : basis_ok (basis_reset d (basis_make d)) [].
Proof. apply reset_ok; unfold basis_make, zeros; cbn [bz bf bv ba bc bsr]; apply tab_length. Qed.

Lemma firstn_app_le {A} k (l l' : list A) : (k <= length l)%nat -> firstn k (l ++ l') = firstn k l.
Proof. intros L. rewrite firstn_app. replace (k - length l)%nat with 0%nat by lia. cbn. apply app_nil_r. Qed.
Lemma pop_ok b Bs p : basis_ok b (Bs ++ [p]) -> basis_ok (pop b) Bs.
Proof.
  intros [L Le Lz Lf Lv La Lc Lr Q Z O D Di Ck]. rewrite app_length in L. cbn in L.
  constructor; cbn [bm pop bz bf bv ba bc bsr bq0]; auto; try lia.
  - intros M i Hi. rewrite (Q ltac:(lia) i Hi). rewrite app_nth1 by lia. reflexivity.
  - intros i Hi. apply Z. lia.
  - intros i j Hi Hj N. apply O; auto; lia.
  - intros k y K E. specialize (D k y ltac:(lia) E). rewrite !app_nth1 in D by lia. exact D.
  - intros i Hi. specialize (Di i ltac:(lia)). rewrite firstn_app_le in Di by lia. exact Di.
  - intros k K. specialize (Ck k ltac:(lia)). rewrite firstn_app_le in Ck by lia. exact Ck.
Qed.

(** The centre and the squared radius the basis reports. *)
Definition cc (b : basis) : nat -> R := pc (center_of b).

Lemma power_pw c r p : power d c r p = pw d (pc c) r (pc p).
Proof.
  unfold power, pw, dist2, norm2, inner.
  assert (G : forall n a, fold_left (fun e k => nadd e (sqr (nsub (get p k) (get c k)))) (seq 0 n) a = a + Rsum n (fun i => (pc p i - pc c i) * (pc p i - pc c i))).
  { induction n as [|n IH]; intros a; [cbn; ring|]. rewrite seq_S, fold_left_app, IH. cbn [fold_left Rsum plus]. unfold sqr. cbn [nadd nsub nmul Rnum]. unfold get, pc. change n0 with 0. ring. }
  rewrite G. cbn [nopp Rnum]. apply Rplus_comm.
Qed.
Lemma excess_pw b p : excess d b p = pw d (cc b) (bcr b) (pc p).
Proof. apply power_pw. Qed.

(** Gram-Schmidt: subtracting the parts along the rows. *)
Lemma gs_fold b am : forall is w, forall t, (t < d)%nat ->
  pc (fold_left (fun w i => tab d (fun j => nsub (get w j) (nmul (get am i) (get (row (bv b) i) j)))) is w) t = pc w t - fold_right (fun i s => nth i am 0 * V b i t + s) 0 is.
Proof.
  induction is as [|i is IH]; intros w t Ht; [cbn [fold_left fold_right]; rewrite Rminus_0_r; reflexivity|]. cbn [fold_left fold_right]. rewrite IH by auto. unfold pc at 1. rewrite nth_tab by auto. cbn [nsub nmul Rnum]. unfold get, pc. change n0 with 0. ring.
Qed.
Lemma inner_fold y am b : forall is, inner d y (fun t => fold_right (fun i s => nth i am 0 * V b i t + s) 0 is) = fold_right (fun i s => nth i am 0 * inner d y (V b i) + s) 0 is.
Proof. induction is as [|i is IH]; cbn [fold_right]. - unfold inner. apply Rsum_zero. intros; ring. - rewrite inner_plus_r, IH, inner_scal_r. reflexivity. Qed.

Definition new_row (b : basis) (p : list R) : list R :=
  let m := bm b in
  tab d (fun i => if Nat.leb 1 i && Nat.ltb i m then nsum d (fun j => nmul (get (row (bv b) i) j) (get (tab d (fun i => nsub (get p i) (get (bq0 b) i))) j)) * (n2 / nth i (bz b) 0) else get (row (ba b) m) i).
Definition new_v (b : basis) (p : list R) : list R :=
  fold_left (fun w i => tab d (fun j => nsub (get w j) (nmul (get (new_row b p) i) (get (row (bv b) i) j)))) (seq 1 (bm b - 1)) (tab d (fun i => nsub (get p i) (get (bq0 b) i))).

Lemma new_row_val b Bs p i : basis_ok b Bs -> (1 <= i < bm b)%nat -> (bm b <= d)%nat ->
  nth i (new_row b p) 0 = inner d (V b i) (fun t => pc p t - pc (nth 0 Bs []) t) / norm2 d (V b i).
Proof.
  intros K Hi Md. destruct K as [L Le Lz Lf Lv La Lc Lr Q Z O D Di Ck]. unfold new_row. rewrite nth_tab by lia.
  replace (Nat.leb 1 i && Nat.ltb i (bm b)) with true by (symmetry; apply andb_true_iff; split; [apply Nat.leb_le|apply Nat.ltb_lt]; lia).
  rewrite nsum_Rsum. destruct (Z i Hi) as (Zi & Zp). rewrite Zi. unfold n2. cbn [nofZ Rnum].
  replace (inner d (V b i) (fun t => pc p t - pc (nth 0 Bs []) t)) with (Rsum d (fun j => nmul (get (row (bv b) i) j) (get (tab d (fun i0 : nat => nsub (get p i0) (get (bq0 b) i0))) j))).
  - field. lra.
  - unfold inner. apply Rsum_ext. intros j Hj. unfold get. rewrite nth_tab by auto. cbn [nmul nsub Rnum]. change n0 with 0. rewrite <- (Q ltac:(lia) j Hj). reflexivity.
Qed.

(** the vector v_m of push: perpendicular to the earlier ones, and p minus a point of the affine hull *)
Lemma new_v_spec b Bs p : basis_ok b Bs -> (1 <= bm b <= d)%nat ->
  (forall i, (1 <= i < bm b)%nat -> inner d (V b i) (pc (new_v b p)) = 0) /\ in_affine d Bs (fun t => pc p t - pc (new_v b p) t) /\
  (forall y, (forall i, (1 <= i < bm b)%nat -> inner d (V b i) y = 0) -> inner d (pc (new_v b p)) y = inner d (pc p) y - inner d (pc (nth 0 Bs [])) y).
Proof.
  intros K M. pose proof K as [L Le Lz Lf Lv La Lc Lr Q Z O D Di Ck].
  set (sub := fun t => fold_right (fun i s => nth i (new_row b p) 0 * V b i t + s) 0 (seq 1 (bm b - 1))).
  assert (E : forall t, (t < d)%nat -> pc (new_v b p) t = (pc p t - pc (nth 0 Bs []) t) - sub t).
  { intros t Ht. unfold new_v. rewrite gs_fold by auto. fold (sub t). f_equal. unfold pc at 1. rewrite nth_tab by auto. cbn [nsub Rnum]. unfold get. change n0 with 0. rewrite <- (Q ltac:(lia) t Ht). reflexivity. }
  split; [|split].
  - intros i Hi. rewrite (inner_ext d _ (pc (new_v b p)) (V b i) (fun t => (pc p t - pc (nth 0 Bs []) t) - sub t)) by auto.
    rewrite inner_minus_r. unfold sub. rewrite inner_fold.
    assert (G : forall s n, (1 <= s)%nat -> (s + n <= bm b)%nat -> fold_right (fun j t => nth j (new_row b p) 0 * inner d (V b i) (V b j) + t) 0 (seq s n) = if Nat.leb s i && Nat.ltb i (s + n) then nth i (new_row b p) 0 * norm2 d (V b i) else 0).
    { intros s n. revert s. induction n as [|n IH]; intros s Hs Hn; cbn [seq fold_right].
      - destruct (Nat.leb_spec s i), (Nat.ltb_spec i (s + 0)); cbn; try reflexivity; lia.
      - rewrite IH by lia. destruct (Nat.eq_dec s i) as [->|Ne].
        + rewrite Nat.leb_refl. destruct (Nat.leb_spec (S i) i); [lia|]. destruct (Nat.ltb_spec i (i + S n)); [|lia]. cbn. unfold norm2. ring.
        + rewrite O by lia. destruct (Nat.leb_spec s i), (Nat.leb_spec (S s) i), (Nat.ltb_spec i (s + S n)), (Nat.ltb_spec i (S s + n)); cbn [andb]; try lia; ring. }
    rewrite G by lia. destruct (Nat.leb_spec 1 i); [|lia]. destruct (Nat.ltb_spec i (1 + (bm b - 1))); [|lia]. cbn [andb].
    rewrite (new_row_val b Bs p i K Hi) by lia. destruct (Z i Hi) as [_ Zp]. field. lra.
  - apply affine_ext with (x := fun t => pc (nth 0 Bs []) t + sub t); [intros t Ht; rewrite E by auto; ring|].
    unfold sub. assert (G : forall is, Forall (fun i => (1 <= i < bm b)%nat) is -> in_affine d Bs (fun t => pc (nth 0 Bs []) t + fold_right (fun i s => nth i (new_row b p) 0 * V b i t + s) 0 is)).
    { induction 1 as [|i is Hi His IH]; cbn [fold_right].
      - apply affine_ext with (x := pc (nth 0 Bs [])); [intros; ring|]. apply affine_member. lia.
      - apply affine_ext with (x := fun t => (pc (nth 0 Bs []) t + fold_right (fun i s => nth i (new_row b p) 0 * V b i t + s) 0 is) + nth i (new_row b p) 0 * V b i t); [intros; ring|].
        apply affine_add; auto. rewrite <- (firstn_skipn (S i) Bs). apply direction_pad. apply Di; auto. }
    apply G. apply Forall_forall. intros i I. apply in_seq in I. lia.
  - intros y Hy. rewrite (inner_ext d (pc (new_v b p)) y (fun t => (pc p t - pc (nth 0 Bs []) t) - sub t) y) by auto.
    rewrite !inner_minus_l. assert (inner d sub y = 0); [|lra]. rewrite inner_comm. unfold sub. rewrite inner_fold.
    assert (G : forall is, Forall (fun i => (1 <= i < bm b)%nat) is -> fold_right (fun i s => nth i (new_row b p) 0 * inner d y (V b i) + s) 0 is = 0).
    { induction 1 as [|i is Hi His IH]; cbn [fold_right]; [auto|]. rewrite IH, inner_comm, Hy by auto. ring. }
    apply G. apply Forall_forall. intros i I. apply in_seq in I. lia.
Qed.

Lemma nth_upd_row {A} (l : list A) i j x dft : (i < length l)%nat -> nth j (upd l i x) dft = if Nat.eqb j i then x else nth j l dft.
Proof. intros L. destruct (Nat.eqb_spec j i) as [->|N]; [apply nth_upd_same; auto|apply nth_upd_other; auto]. Qed.

(** The basis holds Bs and reports the smallest ball through all of it. *)
Definition fresh (b : basis) (Bs : list (list R)) : Prop :=
  basis_ok b Bs /\ bs b = length Bs /\ in_affine d Bs (cc b) /\ touches d (cc b) (bcr b) Bs.

Lemma push_0 b p : basis_ok b [] -> exists b', push d tau b p = Ret (true, b') /\ fresh b' [p].
Proof.
  intros [L Le Lz Lf Lv La Lc Lr Q Z O D Di Ck]. cbn in L. unfold push. rewrite <- L. cbn [Nat.ltb Nat.leb Nat.eqb].
  eexists. split; [reflexivity|].
  assert (E : forall i, (i < d)%nat -> pc (tab d (fun i => get p i)) i = pc p i) by (intros i Hi; unfold pc; rewrite nth_tab by auto; reflexivity).
  assert (A : in_affine d [p] (pc (tab d (fun i => get p i)))).
  { exists [(1, p)]. split; [reflexivity|]. split; [cbn; ring|]. intros i Hi. rewrite E, weighted_cons by auto. change (weighted [] i) with 0. cbn [fst snd]. ring. }
  assert (T : touches d (pc (tab d (fun i => get p i))) 0 [p]).
  { intros q [<-|[]]. rewrite (pw_ext_c d _ (pc p) 0 (pc p) E). rewrite pw_center. ring. }
  split.
  - constructor; cbn [bm bz bf bv ba bc bsr bq0 length]; rewrite ?upd_length; auto; try lia; try (intros; exfalso; lia).
    + intros k y K _. replace k with 0%nat by lia. reflexivity.
    + intros k K. replace k with 0%nat by lia. cbn [firstn]. unfold row. rewrite !nth_upd_same by lia. auto.
  - unfold cc, center_of. cbn [bcur bc bcr bs length]. unfold row. rewrite nth_upd_same by lia. auto.
Qed.

Lemma firstn_snoc {A} (l : list A) x : firstn (S (length l)) (l ++ [x]) = l ++ [x].
Proof. apply firstn_all2. rewrite app_length. cbn. lia. Qed.

Lemma push_spec b Bs p : basis_ok b Bs -> (1 <= bm b <= d)%nat -> let z := 2 * norm2 d (pc (new_v b p)) in
  exists b1 b2, push d tau b p = Ret (if Rlt_bool z (tau * bcr b) then (false, b1) else (true, b2)) /\
    basis_ok b1 Bs /\ center_of b1 = center_of b /\ bcr b1 = bcr b /\ bs b1 = bs b /\ (0 < norm2 d (pc (new_v b p)) -> fresh b2 (Bs ++ [p])).
Proof.
  intros K M z. pose proof K as [L Le Lz Lf Lv La Lc Lr Q Z O D Di Ck].
  destruct (new_v_spec b Bs p K M) as (Vo & Va & Vd).
  set (m := bm b) in *. set (vm := new_v b p) in *.
  assert (Zm : nmul (nsum d (fun j => sqr (get vm j))) n2 = z).
  { rewrite nsum_Rsum. unfold z, norm2, inner, n2. cbn [nmul nofZ Rnum]. rewrite Rmult_comm. reflexivity. }
  set (e := power d (row (bc b) (m - 1)) (get (bsr b) (m - 1)) p).
  set (fm := e / z). set (cm := tab d (fun i => get (row (bc b) (m - 1)) i + fm * get vm i)). set (rm := get (bsr b) (m - 1) + e * fm / 2).
  set (b1 := mkBasis m (bs b) (bq0 b) (upd (bz b) m z) (bf b) (upd (bv b) m vm) (upd (ba b) m (new_row b p)) (bc b) (bsr b) (bcur b) (bcr b)).
  exists b1, (mkBasis (S m) (S m) (bq0 b) (bz b1) (upd (bf b) m fm) (bv b1) (ba b1) (upd (bc b) m cm) (upd (bsr b) m rm) m rm).
  split; [|split; [|split; [|split; [|split]]]]; try reflexivity.
  - unfold push. fold m. replace (Nat.ltb d m) with false by (symmetry; apply Nat.ltb_ge; lia). replace (Nat.eqb m 0) with false by (symmetry; apply Nat.eqb_neq; lia).
    cbv zeta. change (fold_left _ (seq 1 (m - 1)) _) with vm. rewrite Zm. cbn [nltb nmul Rnum]. destruct (Rlt_bool z (tau * bcr b)); reflexivity.
  - constructor; cbn [bm bz bf bv ba bc bsr bq0 b1]; rewrite ?upd_length; auto; unfold row in *.
    + intros i Hi. rewrite !nth_upd_other by lia. apply Z; auto.
    + intros i j Hi Hj N. rewrite !nth_upd_other by lia. apply O; auto.
    + intros k y Hk E. apply D; auto. intros i Hi. specialize (E i Hi). rewrite nth_upd_other in E by lia. exact E.
    + intros i Hi. rewrite !nth_upd_other by lia. apply Di; auto.
  - intros Np.
    set (c' := pc (row (bc b) (m - 1))). set (r' := nth (m - 1) (bsr b) 0).
    destruct (Ck (m - 1)%nat ltac:(lia)) as (Ca & Ct). replace (S (m - 1)) with m in Ca, Ct by lia. replace (firstn m Bs) with Bs in Ca, Ct by (rewrite <- L; symmetry; apply firstn_all).
    fold c' in Ca. fold c' r' in Ct.
    assert (Q0 : forall q, In q Bs -> inner d (pc q) (pc vm) = inner d (pc (nth 0 Bs [])) (pc vm)).
    { intros q I. apply In_nth with (d := []) in I as (k & Hk & <-). apply D; [lia|]. intros i Hi. apply Vo. lia. }
    assert (Ci : inner d c' (pc vm) = inner d (pc (nth 0 Bs [])) (pc vm)) by (apply affine_inner with (l := Bs); auto).
    assert (Pi : inner d (pc p) (pc vm) - inner d (pc (nth 0 Bs [])) (pc vm) = norm2 d (pc vm)) by (symmetry; apply Vd; auto).
    assert (Ee : e = pw d c' r' (pc p)) by (unfold e; rewrite power_pw; reflexivity).
    assert (Ecm : forall i, (i < d)%nat -> pc cm i = c' i + fm * pc vm i) by (intros i Hi; unfold cm, pc; rewrite nth_tab by auto; reflexivity).
    assert (Pw : forall x, pw d (pc cm) rm x = pw d c' r' x - 2 * fm * (inner d x (pc vm) - inner d c' (pc vm)) + fm * fm * norm2 d (pc vm) - e * fm / 2).
    { intros x. rewrite (pw_ext_c d (pc cm) (fun i => c' i + fm * pc vm i) rm x Ecm). unfold pw. rewrite !dist2_expand. unfold norm2. rewrite inner_plus_r, inner_scal_r, !inner_plus_l, !inner_plus_r, !inner_scal_l, !inner_scal_r. rewrite (inner_comm d (pc vm) c').
      change rm with (r' + e * fm / 2). field. }
    assert (Fz : fm * (2 * norm2 d (pc vm)) = e) by (unfold fm, z; field; lra).
    assert (At : touches d (pc cm) rm (Bs ++ [p])).
    { intros q I. rewrite Pw. apply in_app_iff in I as [I|[<-|[]]].
      - rewrite (Ct q I), (Q0 q I), Ci. replace e with (fm * (2 * norm2 d (pc vm))) at 1. field.
      - rewrite Ci, <- Ee, Pi. rewrite <- Fz. field. }
    assert (Aa : in_affine d (Bs ++ [p]) (pc cm)).
    { apply affine_ext with (x := fun t => c' t + fm * (pc p t - (pc p t - pc vm t))); [intros i Hi; rewrite Ecm by auto; ring|].
      apply affine_add; [apply affine_pad; auto|]. apply direction_sub; [|apply affine_pad; auto].
      pose proof (affine_member (Bs ++ [p]) (length Bs)) as Am. rewrite nth_middle in Am. apply Am. rewrite app_length. cbn. lia. }
    assert (Sn : firstn (S m) (Bs ++ [p]) = Bs ++ [p]) by (rewrite <- L; apply firstn_snoc).
    split; [|unfold cc, center_of; cbn [bs bcur bc bcr]; unfold row; rewrite nth_upd_same by lia; split; [rewrite app_length; cbn; lia|auto]].
    constructor; cbn [bm bz bf bv ba bc bsr bq0 b1]; rewrite ?upd_length; auto; unfold row in *; try lia.
    + rewrite app_length. cbn. lia.
    + intros _ i Hi. rewrite app_nth1 by lia. apply Q; [lia|auto].
    + intros i Hi. rewrite !nth_upd_row by lia. destruct (Nat.eqb_spec i m) as [->|N]; [auto|]. apply Z. lia.
    + intros i j Hi Hj N. rewrite !nth_upd_row by lia. destruct (Nat.eqb_spec i m) as [->|Ni], (Nat.eqb_spec j m) as [->|Nj]; try lia.
      * rewrite inner_comm. apply Vo. lia.
      * apply Vo. lia.
      * apply O; lia.
    + intros k y Hk E. rewrite (app_nth1 _ _ _ (n := 0%nat)) by lia. destruct (Nat.eq_dec k m) as [->|Nk].
      * rewrite <- L at 1. rewrite nth_middle. pose proof (E m ltac:(lia)) as Em. rewrite nth_upd_same in Em by lia. rewrite Vd in Em; [lra|].
        intros i Hi. specialize (E i ltac:(lia)). rewrite nth_upd_other in E by lia. exact E.
      * rewrite app_nth1 by lia. apply D; [lia|]. intros i Hi. specialize (E i Hi). rewrite nth_upd_other in E by lia. exact E.
    + intros i Hi. rewrite nth_upd_row by lia. destruct (Nat.eqb_spec i m) as [->|N].
      * rewrite Sn. destruct (direction_sub (Bs ++ [p]) (pc p) (fun t => pc p t - pc vm t)) as (w & W1 & W2 & W3).
        -- pose proof (affine_member (Bs ++ [p]) (length Bs)) as Am. rewrite nth_middle in Am. apply Am. rewrite app_length. cbn. lia.
        -- apply affine_pad; auto.
        -- exists w. split; auto. split; auto. intros t Ht. rewrite <- W3 by auto. ring.
      * rewrite firstn_app_le by lia. apply Di. lia.
    + intros k Hk. rewrite !nth_upd_row by lia. destruct (Nat.eqb_spec k m) as [->|N]; [rewrite Sn; auto|]. rewrite firstn_app_le by lia. apply Ck. lia.
Qed.
End Basis.
