(** Proofs about corner lists and about adding, removing and moving corners of a polygon in space. *)
From Coq Require Import ZArith NArith Reals Bool List Lia Lra Psatz.
From Flocq Require Import Core.Raux Core.Zaux.
From Verif Require Import Base Scalar ConstModel VecModel RotModel QuatModel ShapeModel PolyModel RSpec VecSpec RotSpec QuatSpec ShapeSpec MotionSpec PolySpec RLib MatLib OrdLib VecProofs VecProofs2 VecProofs3 VecProofs4 VecProofs5 ShapeProofs ShapeProofs2 ShapeProofs3 BallProofs SphereProofs ConstProofs MotionProofs MotionProofs2.
Import ListNotations.
Open Scope R_scope.

(** ** Sequences *)
Section Seq.
Context {A : Type}.
Implicit Types l : list A.
Lemma nth_skipn l i k : nth_error (skipn i l) k = nth_error l (i + k).
Proof. revert l. induction i as [|i IH]; intros [|x l]; cbn; auto. now destruct k. Qed.
Lemma nth_firstn l i k : (k < i)%nat -> nth_error (firstn i l) k = nth_error l k.
Proof. revert l k. induction i as [|i IH]; intros l k Hk; [lia|]. destruct l as [|x l]; cbn; [now destruct k|]. destruct k; cbn; auto. apply IH. lia. Qed.
Lemma insert_spec l i x : (i <= length l)%nat -> exists l', list_insert l i x = Ret l' /\ length l' = S (length l) /\ inserted l i x l'.
Proof.
  intros Hi. unfold list_insert. rewrite (proj2 (Nat.leb_le _ _) Hi). eexists. split; [reflexivity|]. split.
  - rewrite app_length. cbn. rewrite firstn_length, skipn_length. lia.
  - intros k. destruct (Nat.ltb_spec k i) as [L|L].
    + rewrite nth_error_app1 by (rewrite firstn_length; lia). now apply nth_firstn.
    + rewrite nth_error_app2 by (rewrite firstn_length; lia). rewrite firstn_length, Nat.min_l by lia. destruct (Nat.eqb_spec k i) as [->|N].
      * rewrite Nat.sub_diag. reflexivity.
      * replace (k - i)%nat with (S (k - i - 1)) by lia. cbn. rewrite nth_skipn. f_equal. lia.
Qed.
Lemma insert_undef l i x : (length l < i)%nat -> list_insert l i x = Undef.
Proof. intros Hi. unfold list_insert. destruct (Nat.leb_spec i (length l)); [lia|auto]. Qed.
Lemma erase_spec l i : (i < length l)%nat -> exists l', list_erase l i = Ret l' /\ S (length l') = length l /\ deleted l i l'.
Proof.
  intros Hi. unfold list_erase. rewrite (proj2 (Nat.ltb_lt _ _) Hi). eexists. split; [reflexivity|]. split.
  - rewrite app_length, firstn_length, skipn_length. lia.
  - intros k. destruct (Nat.ltb_spec k i) as [L|L].
    + rewrite nth_error_app1 by (rewrite firstn_length; lia). now apply nth_firstn.
    + rewrite nth_error_app2 by (rewrite firstn_length; lia). rewrite firstn_length, Nat.min_l by lia. rewrite nth_skipn. f_equal. lia.
Qed.
Lemma erase_undef l i : (length l <= i)%nat -> list_erase l i = Undef.
Proof. intros Hi. unfold list_erase. destruct (Nat.ltb_spec i (length l)); [lia|auto]. Qed.
Lemma set_spec l i x : (i < length l)%nat -> exists l', oset l i x = Ret l' /\ length l' = length l /\ replaced l i x l'.
Proof.
  intros Hi. exists (upd l i x). split; [now apply oset_ret|]. split; [apply upd_length|]. intros k. destruct (Nat.eqb_spec k i) as [->|N].
  - now apply nth_error_upd_same.
  - apply nth_error_upd_other. auto.
Qed.
Lemma set_undef l i x : (length l <= i)%nat -> oset l i x = Undef.
Proof. intros Hi. unfold oset. destruct (Nat.ltb_spec i (length l)); [lia|auto]. Qed.
Lemma get_undef l i : (length l <= i)%nat -> oget l i = Undef.
Proof. intros Hi. unfold oget. now rewrite (proj2 (nth_error_None l i) Hi). Qed.
Lemma nth_ext_error l l' : (forall k, nth_error l k = nth_error l' k) -> l = l'.
Proof.
  revert l'. induction l as [|x l IH]; intros [|y l'] E; auto; [specialize (E 0%nat); discriminate|specialize (E 0%nat); discriminate|].
  pose proof (E 0%nat) as E0. cbn in E0. injection E0 as ->. f_equal. apply IH. intros k. apply (E (S k)).
Qed.
End Seq.

(** ** Adding a corner *)
Section Expand.
Context (eps : Epsilon).
Variable n : nat.
Lemma scale_co (v : coords R) k i : (i < n)%nat -> co (vec_scale n v k) i = co v i * k.
Proof. intros Hi. unfold vec_scale. rewrite co_tab by auto. reflexivity. Qed.
Lemma div_co (v : coords R) k i : (i < n)%nat -> co (vec_div n v k) i = co v i / k.
Proof. intros Hi. unfold vec_div. rewrite co_tab by auto. reflexivity. Qed.
Lemma set_valid_co (v : coords R) b : co (set_valid v b) = co v. Proof. reflexivity. Qed.
Lemma set_valid_valid (v : coords R) b : valid (set_valid v b) = b. Proof. reflexivity. Qed.

Lemma flat_plane o c : flat_ok o c <-> plane_ok o (co c). Proof. reflexivity. Qed.
Lemma norm2_ext a b : (forall i, (i < n)%nat -> a i = b i) -> norm2 n a = norm2 n b.
Proof. intros E. unfold norm2. now apply inner_ext. Qed.
Lemma two_axes (s a b : nat -> R) u v : norm2 n a = 1 -> norm2 n b = 1 -> inner n a b = 0 ->
  norm2 n (fun i => s i - (u * a i + v * b i)) = norm2 n s - 2 * u * inner n s a - 2 * v * inner n s b + u * u + v * v.
Proof.
  intros A B C. rewrite norm2_minus, inner_plus_r, !inner_scal_r, norm2_plus, !norm2_scal, inner_scal_l, inner_scal_r, A, B, C. ring.
Qed.
Lemma one_axis (s a : nat -> R) u : norm2 n a = 1 -> norm2 n (fun i => s i - u * a i) = norm2 n s - 2 * u * inner n s a + u * u.
Proof. intros A. rewrite norm2_minus, inner_scal_r, norm2_scal, A. ring. Qed.

Definition room (o : porient R) (x : coords R) (epsilon : R) : R := if valid (porigin o) then epsilon * dist2 n (co x) (co (porigin o)) else 0.

Lemma expand_spec o x epsilon : frame_ok n o -> 0 <= epsilon -> expand_exact eps n o x ->
  match orient_expand n o x epsilon with
  | None => valid (pax1 o) = true /\ forall y, in_plane n o y -> room o x epsilon < dist2 n (co x) y
  | Some (o', p2) => frame_ok n o' /\ valid (porigin o') = true /\ flat_ok o' p2 /\ valid p2 = true /\
      dist2 n (plane_at o' (co p2)) (co x) <= room o x epsilon /\
      (forall c, flat_ok o c -> flat_ok o' c /\ pteq n (plane_at o' (co c)) (plane_at o (co c)))
  end.
Proof.
  intros (F1 & F2 & F3 & F4) He (Ess & Ea). unfold orient_expand, room. destruct (valid (porigin o)) eqn:Vo; cbn [negb].
  2:{ assert (V0 : valid (pax0 o) = false) by (apply not_true_iff_false; intros Q; specialize (F2 Q); discriminate).
      assert (V1 : valid (pax1 o) = false) by (apply not_true_iff_false; intros Q; rewrite (F1 Q) in V0; discriminate).
      split; [unfold frame_ok; cbn [pax0 pax1 porigin]; rewrite ?V0, ?V1; intuition discriminate|]. cbn [porigin]. split; [reflexivity|]. split; [repeat split|]. split; [reflexivity|]. split.
      - unfold plane_at. cbn [pax0 pax1 porigin]. rewrite V0, V1. rewrite set_valid_co. unfold dist2. rewrite (norm2_ext _ (fun _ => 0)); [|intros; ring]. unfold norm2, inner. rewrite Rsum_zero; [lra|intros; ring].
      - intros c (X & _). congruence. }
  set (s := vec_sub n x (porigin o)) in *.
  assert (Sc : forall i, (i < n)%nat -> co s i = co x i - co (porigin o) i) by (intros i Hi; unfold s; now rewrite sub_co).
  assert (N : norm2 n (co s) = dist2 n (co x) (co (porigin o))) by (unfold dist2; apply norm2_ext; exact Sc).
  rewrite Ess, sqr_mag_norm2. fold (norm2 n (co s)). cbn [nmul nleb Rnum]. rewrite N. rewrite (Rmult_comm (dist2 n _ _) epsilon). set (bound := epsilon * dist2 n (co x) (co (porigin o))) in *.
  assert (Bp : 0 <= bound) by (unfold bound; apply Rmult_le_pos; auto; apply dist2_nonneg).
  destruct (Rle_bool_spec (dist2 n (co x) (co (porigin o))) bound) as [L|L].
  { split; [repeat split; auto; apply F4; auto|]. split; [auto|]. split; [repeat split; auto|]. split; [reflexivity|]. split.
    - rewrite dist2_sym. rewrite (dist2_ext n _ _ (co x) (co (porigin o))); auto using pteq_refl. intros i Hi. unfold plane_at, pt2, co at 2 4. cbn. destruct (valid _), (valid _); ring.
    - intros c C. split; auto using pteq_refl. }
  destruct (valid (pax0 o)) eqn:V0; cbn [negb].
  2:{ assert (V1 : valid (pax1 o) = false) by (apply not_true_iff_false; intros Q; specialize (F1 Q); discriminate).
      rewrite mag_norm. set (m := norm n (co s)). assert (Mp : 0 < m) by (unfold m, norm; apply sqrt_lt_R0; rewrite N; lra).
      split; [|split; [auto|split; [|split; [reflexivity|split]]]].
      - split; [|split; [|split]]; cbn [pax0 pax1 porigin]; rewrite ?set_valid_valid, ?V1; auto; try discriminate. intros _. rewrite set_valid_co. rewrite (norm2_ext _ (fun i => / m * co s i)); [|intros i Hi; rewrite div_co by auto; field; lra].
        rewrite norm2_scal. unfold m. rewrite <- norm_sqr. fold m. field. lra.
      - repeat split; auto. cbn. discriminate.
      - rewrite (dist2_ext n _ _ (co x) (co x)); auto using pteq_refl.
        + unfold dist2. rewrite (norm2_ext _ (fun _ => 0)); [|intros; ring]. unfold norm2, inner. rewrite Rsum_zero; [lra|intros; ring].
        + intros i Hi. unfold plane_at. cbn [pax0 pax1 porigin]. rewrite set_valid_valid, V1, set_valid_co, div_co by auto. unfold pt2, co at 3. cbn [el nth]. rewrite Sc by auto. field. lra.
      - intros c (X & Y & Z). split; [repeat split; auto; cbn; discriminate|]. intros i Hi. unfold plane_at. cbn [pax0 pax1 porigin]. rewrite set_valid_valid, V0, V1. rewrite (Y V0). ring. }
  specialize (Ea eq_refl). destruct Ea as (Esa & Esh & Eb). specialize (F3 eq_refl).
  unfold exact_dot in Esa. rewrite Esa in *. set (u := inner n (co s) (co (pax0 o))) in *. set (sh := vec_sub n s (vec_scale n (pax0 o) u)) in *.
  assert (Shc : forall i, (i < n)%nat -> co sh i = co s i - u * co (pax0 o) i) by (intros i Hi; unfold sh; rewrite sub_co, scale_co by auto; ring).
  assert (Ns : norm2 n (co sh) = norm2 n (co s) - u * u).
  { rewrite (norm2_ext _ _ Shc). rewrite one_axis by auto. fold u. ring. }
  assert (Ish : inner n (co sh) (co s) = norm2 n (co sh)).
  { rewrite Ns. rewrite (inner_ext n _ _ (fun i => co s i - u * co (pax0 o) i) (co s) Shc) by auto. rewrite inner_minus_l, inner_scal_l. rewrite (inner_comm n (co (pax0 o))). fold u. unfold norm2. ring. }
  rewrite Esh, Ish. destruct (Rle_bool_spec (norm2 n (co sh)) bound) as [L2|L2].
  { split; [repeat split; auto; apply F4; auto|]. split; [auto|]. split; [repeat split; auto; cbn; congruence|]. split; [reflexivity|]. split.
    - rewrite dist2_sym. unfold dist2. rewrite (norm2_ext _ (co sh)); auto. intros i Hi. unfold plane_at. rewrite V0, Shc, Sc by auto. unfold pt2, co at 4 6. cbn [el nth]. destruct (valid (pax1 o)); unfold n0; cbn [nofZ Rnum]; ring.
    - intros c C. split; auto using pteq_refl. }
  destruct (valid (pax1 o)) eqn:V1; cbn [negb].
  2:{ rewrite mag_norm. set (m := norm n (co sh)). assert (Mp : 0 < m) by (unfold m, norm; apply sqrt_lt_R0; lra).
      split; [|split; [auto|split; [|split; [reflexivity|split]]]].
      - split; [|split; [|split]]; cbn [pax0 pax1 porigin]; rewrite ?set_valid_valid; auto. intros _. rewrite set_valid_co. split.
        + rewrite (norm2_ext _ (fun i => / m * co sh i)); [|intros i Hi; rewrite div_co by auto; field; lra].
          rewrite norm2_scal. unfold m. rewrite <- norm_sqr. fold m. field. lra.
        + rewrite (inner_ext n _ _ (co (pax0 o)) (fun i => / m * co sh i)) by (auto; intros i Hi; rewrite div_co by auto; field; lra).
          rewrite inner_scal_r. rewrite (inner_ext n _ _ (co (pax0 o)) (fun i => co s i - u * co (pax0 o) i)) by auto. rewrite inner_minus_r, inner_scal_r, (inner_comm n _ (co s)). fold u. unfold norm2 in F3. rewrite F3. ring.
      - repeat split; auto; cbn; congruence.
      - rewrite (dist2_ext n _ _ (co x) (co x)); auto using pteq_refl.
        + unfold dist2. rewrite (norm2_ext _ (fun _ => 0)); [|intros; ring]. unfold norm2, inner. rewrite Rsum_zero; [lra|intros; ring].
        + intros i Hi. unfold plane_at. cbn [pax0 pax1 porigin]. rewrite set_valid_valid, V0, set_valid_co, div_co, Shc, Sc by auto. unfold pt2, co at 3 7. cbn [el nth]. field. lra.
      - intros c (X & Y & Z). split; [repeat split; auto; cbn; congruence|]. intros i Hi. unfold plane_at. cbn [pax0 pax1 porigin]. rewrite set_valid_valid, V0, V1. rewrite (Z V1). ring. }
  specialize (Eb eq_refl). destruct Eb as (Esb & Es2). destruct (F4 eq_refl) as [F5 F6]. unfold exact_dot in Esb. rewrite Esb in *.
  assert (Iv : inner n (co sh) (co (pax1 o)) = inner n (co s) (co (pax1 o))).
  { rewrite (inner_ext n _ _ (fun i => co s i - u * co (pax0 o) i) (co (pax1 o)) Shc) by auto. rewrite inner_minus_l, inner_scal_l, F6. ring. }
  rewrite Iv in *. set (v := inner n (co s) (co (pax1 o))) in *. set (sh2 := vec_sub n sh (vec_scale n (pax1 o) v)) in *.
  assert (S2c : forall i, (i < n)%nat -> co sh2 i = co s i - (u * co (pax0 o) i + v * co (pax1 o) i)) by (intros i Hi; unfold sh2; rewrite sub_co, scale_co, Shc by auto; ring).
  assert (N2 : norm2 n (co sh2) = norm2 n (co s) - u * u - v * v).
  { rewrite (norm2_ext _ _ S2c). rewrite two_axes by auto. fold u v. ring. }
  assert (I2 : inner n (co sh2) (co s) = norm2 n (co sh2)).
  { rewrite N2. rewrite (inner_ext n _ _ _ (co s) S2c) by auto. rewrite inner_minus_l, inner_plus_l, !inner_scal_l. rewrite (inner_comm n (co (pax0 o))), (inner_comm n (co (pax1 o))). fold u v. unfold norm2. ring. }
  rewrite Es2, I2. destruct (Rle_bool_spec (norm2 n (co sh2)) bound) as [L3|L3].
  { split; [repeat split; auto|]. split; [auto|]. split; [repeat split; auto; cbn; congruence|]. split; [reflexivity|]. split.
    - rewrite dist2_sym. unfold dist2. rewrite (norm2_ext _ (co sh2)); auto. intros i Hi. unfold plane_at. rewrite V0, V1, S2c, Sc by auto. unfold pt2, co at 4 6. cbn [el nth]. ring.
    - intros c C. split; auto using pteq_refl. }
  split; auto. intros y (u' & v' & Y). unfold dist2. rewrite (norm2_ext _ (fun i => co s i - (u' * co (pax0 o) i + v' * co (pax1 o) i))) by (intros i Hi; rewrite (Y i Hi), Sc by auto; ring).
  rewrite two_axes by auto. fold u v. rewrite N2 in L3. pose proof (Rle_0_sqr (u - u')) as Q1. pose proof (Rle_0_sqr (v - v')) as Q2. unfold Rsqr in *. fold bound. lra.
Qed.
End Expand.

(** ** Dropping axes that are no longer needed *)
Section Reduce.
Context (eps : Epsilon).
Variable n : nat.
Definition near_first (e : R) (f p : coords R) : Prop := (co p 0 - co f 0) * (co p 0 - co f 0) + (co p 1 - co f 1) * (co p 1 - co f 1) < e * e.
Definition on_slope (r : R) (f p : coords R) : Prop :=
  co p 0 - co f 0 <> 0 /\ Rabs (co p 1 - co f 1 - r * (co p 0 - co f 0)) <= 2 * eps * Rabs (co p 1 - co f 1).

Lemma step_spec o e f p s s' : 0 <= (eps : R) -> 0 < e -> sv0 s = false -> sv1 s = false ->
  (forall r, ratio s = Some r -> r <> 0) -> reduce_step o e f p s = Ret (Some s') ->
  sv0 s' = false /\ sv1 s' = false /\ (forall r, ratio s' = Some r -> r <> 0) /\ (forall r, ratio s = Some r -> ratio s' = Some r) /\ (ratio s' <> ratio s -> valid (pax1 o) = true) /\
  (near_first e f p \/ exists r, ratio s' = Some r /\ on_slope r f p).
Proof.
  intros He Hp S0 S1 Rn. unfold reduce_step. rewrite sqr_mag_norm2. set (d := vec_sub 2 p f).
  assert (D0 : co d 0 = co p 0 - co f 0) by (unfold d; now rewrite sub_co by lia). assert (D1 : co d 1 = co p 1 - co f 1) by (unfold d; now rewrite sub_co by lia).
  change (at_ d 0) with (co d 0). change (at_ d 1) with (co d 1). cbn [nltb nmul nleb nabs Rnum].
  destruct (Rlt_bool_spec (norm2 2 (co d)) (e * e)) as [L|L].
  { intros E. injection E as <-. split; [auto|]. split; [auto|]. split; [auto|]. split; [auto|]. split; [congruence|]. left. unfold near_first. rewrite <- D0, <- D1. unfold norm2, inner in L. cbn [Rsum] in L. lra. }
  destruct (valid (pax1 o)) eqn:V1; cbn [negb]; [|discriminate].
  destruct (Rlt_bool_spec (Rabs (co d 0)) e) as [A|A].
  { destruct (Rle_bool e (co d 1)); cbn [oassert obind]; [|discriminate]. rewrite S1. cbn [orb]. destruct (got_ratio s) eqn:G; cbn [obind]; [discriminate|]. cbn [sv0 sv1 ratio].
    destruct (Rlt_bool (Rabs (co d 1)) e); [destruct (Rle_bool e (co d 0)); cbn [oassert orb obind]; discriminate|]. cbn [obind sv0 orb]. discriminate. }
  cbn [obind]. destruct (Rlt_bool_spec (Rabs (co d 1)) e) as [B|B].
  { destruct (Rle_bool e (co d 0)); cbn [oassert obind]; [|discriminate]. rewrite S0. cbn [orb]. destruct (got_ratio s); cbn [obind sv0 sv1]; [discriminate|]. rewrite orb_true_r. discriminate. }
  cbn [obind]. rewrite S0, S1. cbn [orb ndiv Rnum].
  assert (N0 : co d 0 <> 0) by (intros Z; rewrite Z, Rabs_R0 in A; lra). assert (N1 : co d 1 <> 0) by (intros Z; rewrite Z, Rabs_R0 in B; lra).
  assert (Np : 0 <= Rabs (co d 1)) by apply Rabs_pos.
  destruct (ratio s) as [r|] eqn:Rt.
  - destruct (equal r (co d 1 / co d 0) neps) eqn:Eq; cbn [negb]; [|discriminate]. intros E. injection E as <-. split; [auto|]. split; [auto|]. split; [intros r' Q; apply Rn; congruence|]. split; [congruence|]. split; [congruence|].
    right. exists r. split; auto. unfold on_slope. rewrite <- D0, <- D1. split; auto. cbn [neps Rnum] in Eq.
    apply (equal_R_upper eps) in Eq; auto; [|apply Rmult_integral_contrapositive_currified; auto; apply Rinv_neq_0_compat; auto].
    pose proof (Rmin_r (Rabs r) (Rabs (co d 1 / co d 0))) as M. assert (Q : Rabs (r - co d 1 / co d 0) <= 2 * eps * Rabs (co d 1 / co d 0)) by nra.
    replace (co d 1 - r * co d 0) with (- (r - co d 1 / co d 0) * co d 0) by (field; auto). rewrite Rabs_mult, Rabs_Ropp.
    replace (Rabs (co d 1)) with (Rabs (co d 1 / co d 0) * Rabs (co d 0)) by (rewrite <- Rabs_mult; f_equal; field; auto).
    pose proof (Rabs_pos (co d 0)). apply Rle_trans with (2 * eps * Rabs (co d 1 / co d 0) * Rabs (co d 0)); [apply Rmult_le_compat_r; auto|lra].
  - intros E. injection E as <-. split; [auto|]. split; [auto|]. split; [intros r' Q; injection Q as <-; apply Rmult_integral_contrapositive_currified; auto; apply Rinv_neq_0_compat; auto|]. split; [discriminate|]. split; [auto|]. right. eexists. split; [reflexivity|]. unfold on_slope. rewrite <- D0, <- D1. split; auto.
    replace (co d 1 - co d 1 / co d 0 * co d 0) with 0 by (field; auto). rewrite Rabs_R0. apply Rmult_le_pos; lra.
Qed.
Lemma loop_spec o e f skip : 0 <= (eps : R) -> 0 < e -> forall rest i s s', sv0 s = false -> sv1 s = false -> (forall r, ratio s = Some r -> r <> 0) ->
  reduce_loop o e f rest skip i s = Ret (Some s') ->
  sv0 s' = false /\ sv1 s' = false /\ (forall r, ratio s = Some r -> ratio s' = Some r) /\ (ratio s' <> ratio s -> valid (pax1 o) = true) /\
  (forall k p, nth_error rest k = Some p -> skipped skip (i + k) = false -> near_first e f p \/ exists r, ratio s' = Some r /\ on_slope r f p).
Proof.
  intros He Hp. induction rest as [|q rest IH]; intros i s s' S0 S1 Rn E; cbn [reduce_loop] in E.
  { injection E as <-. split; [auto|]. split; [auto|]. split; [auto|]. split; [congruence|]. intros k p K. destruct k; discriminate. }
  destruct (skipped skip i) eqn:Sk.
  - destruct (IH _ _ _ S0 S1 Rn E) as (A & B & C & D & F). split; [auto|]. split; [auto|]. split; [auto|]. split; [auto|].
    intros [|k] p K N; [rewrite Nat.add_0_r in N; congruence|]. apply (F k p K). rewrite Nat.add_succ_r in N. exact N.
  - destruct (reduce_step o e f q s) as [[s1|]| | |] eqn:St; cbn [obind] in E; try discriminate.
    destruct (step_spec o e f q s s1 He Hp S0 S1 Rn St) as (T0 & T1 & Tn & Tr & Tv & Tq).
    destruct (IH _ _ _ T0 T1 Tn E) as (A & B & C & D & F). split; [auto|]. split; [auto|]. split; [auto|]. split.
    { intros N. destruct (ratio s') as [r'|] eqn:R'; [|destruct (ratio s) as [r|]; [specialize (C r (Tr r eq_refl)); discriminate|congruence]].
      destruct (ratio s1) as [r1|] eqn:R1; [|apply D; congruence]. specialize (C r1 eq_refl). injection C as ->. apply Tv. congruence. }
    intros [|k] p K N.
    + cbn in K. injection K as <-. destruct Tq as [Q|(r & Q1 & Q2)]; [now left|right; exists r; auto].
    + apply (F k p K). rewrite Nat.add_succ_r in N. exact N.
Qed.

Lemma bpow_frexp x : 0 <= x -> bpow radix2 (Rfrexp x) <= 1 + 2 * x.
Proof.
  intros Hx. destruct (Req_dec x 0) as [->|N]; [rewrite Rfrexp_0; cbn; lra|].
  destruct (Rfrexp_bounds x N) as [A _]. rewrite Rabs_pos_eq in A by auto. replace (Rfrexp x) with (Rfrexp x - 1 + 1)%Z by ring. rewrite bpow_plus. change (bpow radix2 1) with 2. lra.
Qed.
Lemma reduce_eps_pos poly skip : 0 < (eps : R) -> 0 < reduce_eps poly skip.
Proof. intros He. unfold reduce_eps. cbn [nldexp Rnum neps]. apply Rmult_lt_0_compat; auto. apply bpow_gt_0. Qed.

(** Distances in the plane and in space. *)
Lemma plane_dist2 o (c d : coords R) : frame_ok n o -> flat_ok o c -> flat_ok o d ->
  dist2 n (plane_at o (co c)) (plane_at o (co d)) = (co c 0 - co d 0) * (co c 0 - co d 0) + (co c 1 - co d 1) * (co c 1 - co d 1).
Proof.
  intros (F1 & F2 & F3 & F4) (_ & C0 & C1) (_ & D0 & D1). unfold dist2, plane_at.
  destruct (valid (pax1 o)) eqn:V1; destruct (valid (pax0 o)) eqn:V0; try (specialize (F1 eq_refl); discriminate).
  - destruct (F4 eq_refl) as [A B]. specialize (F3 eq_refl). rewrite (norm2_ext n _ (fun i => (co c 0 - co d 0) * co (pax0 o) i + (co c 1 - co d 1) * co (pax1 o) i)) by (intros; ring).
    rewrite norm2_plus, !norm2_scal, inner_scal_l, inner_scal_r, A, B, F3. ring.
  - specialize (F3 eq_refl). rewrite (C1 eq_refl), (D1 eq_refl). rewrite (norm2_ext n _ (fun i => (co c 0 - co d 0) * co (pax0 o) i)) by (intros; ring). rewrite norm2_scal, F3. ring.
  - rewrite (C1 eq_refl), (D1 eq_refl), (C0 eq_refl), (D0 eq_refl). rewrite (norm2_ext n _ (fun _ => 0)) by (intros; ring). unfold norm2, inner. rewrite Rsum_zero; [ring|intros; ring].
Qed.

Definition first_left (skip : option nat) : nat := if skipped skip 0 then 1%nat else 0%nat.
Lemma reduce_spec o poly skip o' re : 0 < (eps : R) -> frame_ok n o ->
  (forall k p, nth_error poly k = Some p -> skipped skip k = false -> flat_ok o p) ->
  orient_reduce n o poly skip = Ret (o', re) ->
  frame_ok n o' /\
  ((forall k p, nth_error poly k = Some p -> skipped skip k = false -> forall f, nth_error poly (first_left skip) = Some f ->
     flat_ok o' (reorient_point re p) /\ valid (reorient_point re p) = valid p /\
     ((co p 0 = co f 0 /\ co p 1 = co f 1) \/ reduce_eps poly skip * reduce_eps poly skip <= (co p 0 - co f 0) * (co p 0 - co f 0) + (co p 1 - co f 1) * (co p 1 - co f 1) ->
      dist n (plane_at o' (co (reorient_point re p))) (plane_at o (co p)) <= 2 * eps * dist n (plane_at o (co p)) (plane_at o (co f))))).
Proof.
  intros He F Fl E. unfold orient_reduce, point in E. fold (first_left skip) in E. pose proof F as (F1 & F2 & F3 & F4).
  destruct (Nat.leb_spec (length poly) (first_left skip)) as [L|L].
  { injection E as <- <-. split; [unfold frame_ok; cbn; intuition discriminate|]. intros k p K _ f Kf. exfalso.
    assert (first_left skip < length poly)%nat by (apply nth_error_Some; congruence). lia. }
  destruct (valid (porigin o)) eqn:Vo; cbn [oassert] in E; [|discriminate].
  assert (Same : forall p f, 0 <= 2 * eps * dist n (plane_at o (co p)) (plane_at o (co f))) by (intros; apply Rmult_le_pos; [lra|apply dist_nonneg]).
  assert (Keep : frame_ok n o /\ forall k p, nth_error poly k = Some p -> skipped skip k = false -> forall f, nth_error poly (first_left skip) = Some f ->
     flat_ok o (reorient_point ReNone p) /\ valid (reorient_point ReNone p) = valid p /\
     ((co p 0 = co f 0 /\ co p 1 = co f 1) \/ reduce_eps poly skip * reduce_eps poly skip <= (co p 0 - co f 0) * (co p 0 - co f 0) + (co p 1 - co f 1) * (co p 1 - co f 1) ->
      dist n (plane_at o (co (reorient_point ReNone p))) (plane_at o (co p)) <= 2 * eps * dist n (plane_at o (co p)) (plane_at o (co f)))).
  { split; auto. intros k p K Sk f Kf. cbn [reorient_point]. split; [eapply Fl; eauto|]. split; auto. intros _. rewrite dist_refl. auto. }
  destruct (valid (pax0 o)) eqn:V0; cbn [negb] in E; [|injection E as <- <-; auto].
  destruct (skipn (first_left skip) poly) as [|f rest] eqn:Sn; [discriminate|].
  set (e := reduce_eps poly skip) in *. assert (Ep : 0 < e) by now apply reduce_eps_pos.
  assert (Nf : forall k, nth_error poly (first_left skip + k) = nth_error (f :: rest) k) by (intros k; rewrite <- Sn; symmetry; apply nth_skipn).
  destruct (reduce_loop o e (set_valid f true) rest skip (S (first_left skip)) (mkRS false false None)) as [[s|]| | |] eqn:Lp; cbn [obind] in E; try discriminate.
  2:{ injection E as <- <-. exact Keep. }
  destruct (loop_spec o e (set_valid f true) skip ltac:(lra) Ep rest (S (first_left skip)) (mkRS false false None) s eq_refl eq_refl ltac:(discriminate) Lp) as (S0 & S1 & _ & Sv & Sp).
  rewrite S0, S1 in E.
  assert (Cls : forall k p, nth_error poly k = Some p -> skipped skip k = false -> p = f \/ near_first e f p \/ exists r, ratio s = Some r /\ on_slope r f p).
  { intros k p K Sk. assert (first_left skip <= k)%nat. { unfold first_left. destruct (skipped skip 0) eqn:Q; [|lia]. destruct k; [congruence|lia]. }
    replace k with (first_left skip + (k - first_left skip))%nat in K by lia. rewrite Nf in K. destruct (k - first_left skip)%nat as [|j] eqn:J.
    - left. cbn in K. congruence.
    - right. apply (Sp j p K). replace (S (first_left skip) + j)%nat with k by lia. auto. }
  assert (Fz : forall g, nth_error poly (first_left skip) = Some g -> g = f). { intros g Q. specialize (Nf 0%nat). rewrite Nat.add_0_r in Nf. cbn in Nf. congruence. }
  assert (Ff : flat_ok o f). { apply (Fl (first_left skip)); [specialize (Nf 0%nat); rewrite Nat.add_0_r in Nf; cbn in Nf; auto|]. unfold first_left. destruct skip as [[|q]|]; reflexivity. }
  assert (NearEq : forall p, near_first e f p -> (co p 0 = co f 0 /\ co p 1 = co f 1) \/ e * e <= (co p 0 - co f 0) * (co p 0 - co f 0) + (co p 1 - co f 1) * (co p 1 - co f 1) -> co p 0 = co f 0 /\ co p 1 = co f 1).
  { intros p Q [Z|Z]; auto. unfold near_first in Q. lra. }
  change (at_ (set_valid f true) 0) with (co f 0) in E. change (at_ (set_valid f true) 1) with (co f 1) in E.
  destruct (ratio s) as [r|] eqn:Rs.
  - (* a line *)
    assert (V1 : valid (pax1 o) = true) by (apply Sv; discriminate). rewrite V1 in E. cbn [oassert] in E. injection E as <- <-.
    destruct (F4 V1) as [F5 F6]. specialize (F3 eq_refl). set (a := vec_add n (pax0 o) (vec_scale n (pax1 o) r)). rewrite !sqr_mag_norm2.
    assert (Ac : forall i, (i < n)%nat -> co a i = co (pax0 o) i + r * co (pax1 o) i) by (intros i Hi; unfold a; rewrite add_co, (scale_co eps) by auto; ring).
    assert (An : norm2 n (co a) = 1 + r * r). { rewrite (norm2_ext n _ _ Ac). rewrite norm2_plus, inner_scal_r, norm2_scal, F3, F5, F6. ring. }
    change (sqrt (norm2 n (co a))) with (norm n (co a)). set (m := norm n (co a)). assert (Mp : 0 < m) by (unfold m, norm; apply sqrt_lt_R0; rewrite An; nra).
    split.
    + unfold frame_ok. cbn [pax0 pax1 porigin]. rewrite set_valid_valid. split; [discriminate|]. split; [intros _; cbn; now rewrite Vo, V1|]. split; [|discriminate].
      intros _. rewrite (norm2_ext n _ (fun i => / m * co a i)); [|intros i Hi; rewrite (div_co eps) by auto; field; lra]. rewrite norm2_scal. unfold m. rewrite <- norm_sqr. fold m. field. lra.
    + intros k p K Sk g Kg. apply Fz in Kg. subst g. pose proof (Fl k p K Sk) as Fp. cbn [reorient_point]. change (at_ p 0) with (co p 0). cbn [nmul nsub Rnum]. split; [|split; [reflexivity|]].
      { split; [cbn; now rewrite Vo, V1|]. split; [cbn; rewrite V0, V1; discriminate|reflexivity]. }
      intros Sep. set (x := co p 0 - co f 0). set (y := co p 1 - co f 1).
      assert (D : dist n (plane_at (mkO (vec_add n (porigin o) (vec_scale n (pax1 o) (co f 1 - r * co f 0))) (vec_div n a m) (set_valid (pax1 o) false)) (co (pt2 (co p 0 * m) n0 (valid p)))) (plane_at o (co p)) = Rabs (y - r * x)).
      { unfold dist, dist2. rewrite (norm2_ext n _ (fun i => (- (y - r * x)) * co (pax1 o) i)).
        - rewrite norm2_scal, F5. replace (- (y - r * x) * - (y - r * x) * 1) with (Rsqr (y - r * x)) by (unfold Rsqr; ring). apply sqrt_Rsqr_abs.
        - intros i Hi. unfold plane_at. cbn [pax0 pax1 porigin]. rewrite set_valid_valid. replace (valid (vec_div n a m)) with true by (cbn; now rewrite V0, V1). rewrite V0, V1.
          rewrite add_co, (scale_co eps), (div_co eps), Ac by auto. change (co (pt2 (co p 0 * m) n0 (valid p)) 0) with (co p 0 * m). unfold x, y. field. lra. }
      rewrite D. destruct (Cls k p K Sk) as [->|[Q|(r' & Q1 & Q2)]].
      * unfold x, y. replace (co f 1 - co f 1 - r * (co f 0 - co f 0)) with 0 by ring. rewrite Rabs_R0. auto.
      * destruct (NearEq p Q Sep) as [Z0 Z1]. unfold x, y. rewrite Z0, Z1. replace (co f 1 - co f 1 - r * (co f 0 - co f 0)) with 0 by ring. rewrite Rabs_R0. auto.
      * injection Q1 as <-. destruct Q2 as [_ Q2]. eapply Rle_trans; [exact Q2|]. apply Rmult_le_compat_l; [lra|]. unfold dist. rewrite plane_dist2 by auto. fold x y. rewrite <- sqrt_Rsqr_abs. apply sqrt_le_1_alt. unfold Rsqr. nra.
  - (* a point *)
    injection E as <- <-. split; [unfold frame_ok; cbn; intuition discriminate|].
    intros k p K Sk g Kg. apply Fz in Kg. subst g. pose proof (Fl k p K Sk) as Fp. cbn [reorient_point].
    split; [|split; [reflexivity|]].
    { split; [|split; intros; reflexivity]. cbn. destruct (valid (pax1 o)) eqn:V1; cbn; rewrite ?Vo, ?V0, ?V1; reflexivity. }
    intros Sep. rewrite (dist_ext n _ _ (plane_at o (co f)) (plane_at o (co p))); auto using pteq_refl.
    + destruct (Cls k p K Sk) as [->|[Q|(r' & Q1 & Q2)]]; [rewrite !dist_refl; lra| |discriminate].
      destruct (NearEq p Q Sep) as [Z0 Z1]. rewrite (dist_ext n _ _ (plane_at o (co f)) (plane_at o (co f))); auto using pteq_refl; [rewrite dist_refl; auto|].
      intros i Hi. unfold plane_at. rewrite Z0, Z1. reflexivity.
    + intros i Hi. unfold plane_at. cbn [pax0 pax1 porigin]. rewrite !set_valid_valid, V0. cbn [nmul Rnum].
      destruct (valid (pax1 o)) eqn:V1; rewrite !add_co, !(scale_co eps) by auto; ring.
Qed.
End Reduce.

(** ** The three operations of Polygon<dim> *)
Section Ops.
Context (eps : Epsilon).
Variable n : nat.
Lemma corner_inv p k c : pg_corner n p k = Ret c ->
  exists q, nth_error (pcorners p) k = Some q /\ flat_ok (pplane p) q /\ valid c = valid q /\ pteq n (co c) (plane_at (pplane p) (co q)).
Proof.
  unfold pg_corner, poly_corner, oget. destruct (@nth_error (point R) (pcorners p) k) as [q|] eqn:E; cbn [obind]; [|discriminate].
  intros C. apply (convert_inv eps) in C. exists q. rewrite <- flat_plane in C. tauto.
Qed.
Lemma corner_def p k q : nth_error (pcorners p) k = Some q -> flat_ok (pplane p) q ->
  exists c, pg_corner n p k = Ret c /\ valid c = valid q /\ pteq n (co c) (plane_at (pplane p) (co q)).
Proof.
  intros E F. unfold pg_corner, poly_corner, oget. unfold point in *. rewrite E. cbn [obind]. now apply (convert_def eps).
Qed.
Lemma ok_corner p k q : pg_ok n p -> nth_error (pcorners p) k = Some q -> flat_ok (pplane p) q.
Proof. intros [_ F] E. rewrite Forall_forall in F. apply F. eapply nth_error_In. exact E. Qed.
Lemma ok_all p : pg_ok n p -> forall k, (k < pg_num p)%nat -> exists c, pg_corner n p k = Ret c.
Proof.
  intros O k Hk. destruct (@nth_error (coords R) (pcorners p) k) as [q|] eqn:E.
  - destruct (corner_def p k q E (ok_corner p k q O E)) as (c & C & _). eauto.
  - apply nth_error_None in E. unfold pg_num, point in Hk. lia.
Qed.
Lemma forall_nth (P : coords R -> Prop) l : (forall k q, nth_error l k = Some q -> P q) -> Forall P l.
Proof. intros Q. apply Forall_forall. intros q I. apply In_nth_error in I. destruct I as [k E]. eauto. Qed.

Lemma add_spec p i x epsilon b p' : 0 <= epsilon -> pg_ok n p -> expand_exact eps n (pplane p) x -> pg_add n p i x epsilon = Ret (b, p') ->
  (b = false -> p' = p /\ valid (pax1 (pplane p)) = true /\ forall y, in_plane n (pplane p) y -> room n (pplane p) x epsilon < dist2 n (co x) y) /\
  (b = true -> pg_ok n p' /\ pg_num p' = S (pg_num p) /\ (i <= pg_num p)%nat /\ corners_kept eps n p p' None (after_insert i) (fun _ => 0) /\
     exists c, pg_corner n p' i = Ret c /\ valid c = true /\ dist2 n (co c) (co x) <= room n (pplane p) x epsilon).
Proof.
  intros He O Ex E. pose proof (expand_spec eps n (pplane p) x epsilon (proj1 O) He Ex) as S. unfold pg_add in E.
  destruct (orient_expand n (pplane p) x epsilon) as [[o p2]|]; [|injection E as <- <-; split; [intros _; tauto|discriminate]].
  destruct S as (F & Vo & Fp & V2 & D & K). unfold poly_add, point in E. destruct (Nat.le_gt_cases i (length (pcorners p))) as [L|L]; [|rewrite insert_undef in E by auto; discriminate].
  destruct (insert_spec (pcorners p) i p2 L) as (l & El & Ll & Il). unfold point in *. rewrite El in E. cbn [obind] in E. injection E as <- <-. split; [discriminate|]. intros _.
  assert (Fl : forall k q, nth_error l k = Some q -> flat_ok o q).
  { intros k q Q. rewrite Il in Q. destruct (Nat.ltb k i); [apply K; eapply ok_corner; eauto|]. destruct (Nat.eqb k i); [injection Q as <-; auto|]. apply K. eapply ok_corner; eauto. }
  split; [split; [exact F|apply forall_nth; exact Fl]|]. split; [exact Ll|]. split; [exact L|]. split.
  - intros k c _ C. destruct (corner_inv p k c C) as (q & Q & Fq & Vq & Pq).
    assert (Q' : nth_error l (after_insert i k) = Some q).
    { rewrite Il. unfold after_insert. destruct (Nat.ltb_spec k i) as [A|A]; [rewrite (proj2 (Nat.ltb_lt k i) A); exact Q|].
      destruct (Nat.ltb_spec (S k) i); [lia|]. destruct (Nat.eqb_spec (S k) i); [lia|]. replace (S k - 1)%nat with k by lia. exact Q. }
    destruct (corner_def (mkP o l) _ q Q' (Fl _ q Q')) as (c' & C' & Vc' & Pc'). exists c'. split; [exact C'|]. split; [congruence|].
    rewrite (dist_ext n _ _ (plane_at (pplane p) (co q)) (plane_at (pplane p) (co q))); auto; [rewrite dist_refl; lra|].
    eapply pteq_trans; [exact Pc'|]. apply K. exact Fq.
  - assert (Q' : nth_error l i = Some p2) by (rewrite Il; destruct (Nat.ltb_spec i i); [lia|]; now rewrite Nat.eqb_refl).
    destruct (corner_def (mkP o l) i p2 Q' (Fl _ p2 Q')) as (c' & C' & Vc' & Pc'). exists c'. split; [exact C'|]. split; [congruence|].
    rewrite (dist2_ext n _ _ (plane_at o (co p2)) (co x)); auto using pteq_refl.
Qed.

(** The tolerance of reduce. *)
Lemma size_fold (l : list (coords R)) skip : forall st i, (0 < i)%nat -> fst (fold_left (fun (st : R * nat) p =>
         let (size, i) := st in
         if skipped skip i then (size, S i)
         else let x := nabs (at_ p 0) in let y := nabs (at_ p 1) in
              let mx := if nltb y x then x else y in
              (if Nat.eqb i 0 || nltb mx size then mx else size, S i)) l (st, i)) <= st.
Proof.
  induction l as [|p l IH]; intros st i Hi; cbn [fold_left fst]; [lra|]. destruct (skipped skip i); [apply IH; lia|]. cbn zeta. destruct (Nat.eqb_spec i 0); [lia|]. cbn [orb].
  set (mx := if nltb (nabs (at_ p 1)) _ then _ else _). eapply Rle_trans; [apply IH; lia|]. cbn [nltb Rnum]. destruct (Rlt_bool_spec mx st); lra.
Qed.
Lemma size_nonneg (l : list (coords R)) skip : forall st i, 0 <= st -> 0 <= fst (fold_left (fun (st : R * nat) p =>
         let (size, i) := st in
         if skipped skip i then (size, S i)
         else let x := nabs (at_ p 0) in let y := nabs (at_ p 1) in
              let mx := if nltb y x then x else y in
              (if Nat.eqb i 0 || nltb mx size then mx else size, S i)) l (st, i)).
Proof.
  induction l as [|p l IH]; intros st i Hi; cbn [fold_left fst]; [lra|]. destruct (skipped skip i); [apply IH; auto|]. cbn zeta. apply IH. cbn [nltb nabs Rnum].
  pose proof (Rabs_pos (at_ p 0)). pose proof (Rabs_pos (at_ p 1)). destruct (_ || _); [destruct (Rlt_bool _ _)|]; auto.
Qed.
Lemma max_nonneg : 0 <= nmaxval.
Proof. cbn [nmaxval Rnum]. pose proof (bpow_le radix2 971 1024 ltac:(lia)). lra. Qed.
Lemma reduce_eps_le (l : list (coords R)) skip f : 0 <= (eps : R) -> nth_error l (first_left skip) = Some f ->
  reduce_eps l skip <= eps * (1 + 2 * Rmax (Rabs (co f 0)) (Rabs (co f 1))).
Proof.
  intros He E. unfold reduce_eps. cbn [nldexp neps nfrexp Rnum]. apply Rmult_le_compat_l; auto.
  assert (A : 0 <= reduce_size l skip <= Rmax (Rabs (co f 0)) (Rabs (co f 1))).
  { split; [apply size_nonneg, max_nonneg|]. unfold reduce_size.
    assert (Mx : forall p : coords R, (if nltb (nabs (at_ p 1)) (nabs (at_ p 0)) then nabs (at_ p 0) else nabs (at_ p 1)) <= Rmax (Rabs (co p 0)) (Rabs (co p 1))).
    { intros p. cbn [nltb nabs Rnum]. change (at_ p 0) with (co p 0). change (at_ p 1) with (co p 1). destruct (Rlt_bool _ _); [apply Rmax_l|apply Rmax_r]. }
    unfold first_left in E. destruct l as [|a l]; [destruct (skipped skip 0); discriminate|]. cbn [fold_left]. destruct (skipped skip 0) eqn:Sk.
    - destruct l as [|b l]; [discriminate|]. cbn in E. injection E as ->. cbn [fold_left]. replace (skipped skip 1) with false by (destruct skip as [[|[|k]]|]; try discriminate; reflexivity).
      cbn zeta. cbn [Nat.eqb orb]. eapply Rle_trans; [apply size_fold; lia|]. specialize (Mx f). set (mx := if nltb (nabs (at_ f 1)) _ then _ else _) in *. cbn [nltb Rnum]. destruct (Rlt_bool_spec mx nmaxval); [auto|lra].
    - cbn in E. injection E as ->. cbn zeta. cbn [Nat.eqb orb]. eapply Rle_trans; [apply size_fold; lia|]. apply Mx. }
  eapply Rle_trans; [apply bpow_frexp, A|]. lra.
Qed.
Lemma plane_size o (c : coords R) : frame_ok n o -> flat_ok o c -> Rmax (Rabs (co c 0)) (Rabs (co c 1)) <= dist n (plane_at o (co c)) (co (porigin o)).
Proof.
  intros F C. assert (D : dist2 n (plane_at o (co c)) (co (porigin o)) = co c 0 * co c 0 + co c 1 * co c 1).
  { assert (Z : flat_ok o (pt2 0 0 true)) by (split; [apply C|split; intros; reflexivity]).
    rewrite (dist2_ext n _ _ (plane_at o (co c)) (plane_at o (co (pt2 0 0 true)))); auto using pteq_refl.
    - rewrite plane_dist2 by auto. change (co (pt2 0 0 true) 0) with 0. change (co (pt2 0 0 true) 1) with 0. ring.
    - intros i Hi. unfold plane_at. change (co (pt2 0 0 true) 0) with 0. change (co (pt2 0 0 true) 1) with 0. destruct (valid _), (valid _); ring. }
  unfold dist. rewrite D. apply Rmax_lub; rewrite <- sqrt_Rsqr_abs; apply sqrt_le_1_alt; unfold Rsqr; nra.
Qed.

Lemma reorient_nth r skip : forall (l : list (coords R)) i k, nth_error (reorient_from r skip i l) k = option_map (fun p => if skipped skip (i + k) then p else reorient_point r p) (nth_error l k).
Proof.
  induction l as [|a l IH]; intros i [|k]; cbn [reorient_from nth_error option_map]; auto; [now rewrite Nat.add_0_r|]. rewrite IH. replace (S i + k)%nat with (i + S k)%nat by lia. reflexivity.
Qed.
Lemma reorient_length r skip : forall (l : list (coords R)) i, length (reorient_from r skip i l) = length l.
Proof. induction l as [|a l IH]; intros i; cbn [reorient_from length]; auto. Qed.
Lemma plane_apart o (q f : coords R) e : 0 < e -> frame_ok n o -> flat_ok o q -> flat_ok o f -> 
  pteq n (plane_at o (co q)) (plane_at o (co f)) \/ e <= dist n (plane_at o (co q)) (plane_at o (co f)) ->
  (co q 0 = co f 0 /\ co q 1 = co f 1) \/ e * e <= (co q 0 - co f 0) * (co q 0 - co f 0) + (co q 1 - co f 1) * (co q 1 - co f 1).
Proof.
  intros He F Q Fl [A|A].
  - left. assert (Z : dist2 n (plane_at o (co q)) (plane_at o (co f)) = 0). { rewrite (dist2_ext n _ _ (plane_at o (co f)) (plane_at o (co f))); auto using pteq_refl. unfold dist2. rewrite (norm2_ext n _ (fun _ => 0)) by (intros; ring). unfold norm2, inner. apply Rsum_zero. intros; ring. }
    rewrite plane_dist2 in Z by auto. apply Rplus_sqr_eq_0 in Z. unfold Rsqr in Z. split; lra.
  - right. rewrite <- (plane_dist2 n o q f) by auto. rewrite <- dist_sqr. apply Rmult_le_compat; lra.
Qed.

Lemma remove_spec p i p' : 0 < (eps : R) -> pg_ok n p -> pg_remove n p i = Ret p' ->
  pg_ok n p' /\ S (pg_num p') = pg_num p /\ (i < pg_num p)%nat /\
  (forall k, (k < pg_num p)%nat -> k <> i -> exists c, pg_corner n p' (after_delete i k) = Ret c) /\
  (apart eps n p i -> corners_kept eps n p p' (Some i) (after_delete i) (fun c => 2 * eps * dist n (co c) (first_corner eps n p i))).
Proof.
  intros He O E. unfold pg_remove, poly_remove in E. destruct (Nat.lt_ge_cases i (length (pcorners p))) as [L|L]; [|unfold point in *; rewrite erase_undef in E by auto; discriminate].
  destruct (erase_spec (pcorners p) i L) as (l & El & Ll & Dl). unfold point in *. rewrite El in E. cbn [obind] in E.
  destruct (orient_reduce n (pplane p) l None) as [[o re]| | |] eqn:Rd; cbn [obind] in E; try discriminate. injection E as <-.
  assert (Fl : forall k q, nth_error l k = Some q -> skipped None k = false -> flat_ok (pplane p) q).
  { intros k q Q _. rewrite Dl in Q. destruct (Nat.ltb k i); eapply ok_corner; eauto. }
  destruct (reduce_spec eps n (pplane p) l None o re He (proj1 O) Fl Rd) as [F K].
  assert (Hf : forall k q, nth_error l k = Some q -> exists f, nth_error l 0 = Some f) by (intros k q Q; destruct l as [|a l]; [destruct k; discriminate|exists a; reflexivity]).
  assert (Nr : forall k, nth_error (reorient_poly re l None) k = option_map (reorient_point re) (nth_error l k)).
  { intros k. unfold reorient_poly. rewrite reorient_nth. reflexivity. }
  assert (Fl' : forall k q, nth_error (reorient_poly re l None) k = Some q -> flat_ok o q).
  { intros k q Q. rewrite Nr in Q. destruct (nth_error l k) as [q0|] eqn:Q0; [|discriminate]. cbn in Q. injection Q as <-. destruct (Hf k q0 Q0) as [f Hf0]. apply (K k q0 Q0 eq_refl f Hf0). }
  assert (Ad : forall k q, k <> i -> nth_error (pcorners p) k = Some q -> nth_error l (after_delete i k) = Some q).
  { intros k q N Q. rewrite Dl. unfold after_delete. destruct (Nat.ltb_spec k i) as [A|A]; [rewrite (proj2 (Nat.ltb_lt k i) A); exact Q|].
    destruct (Nat.ltb_spec (k - 1) i); [lia|]. replace (S (k - 1)) with k by lia. exact Q. }
  assert (Ln : length (reorient_poly re l None) = length l) by apply reorient_length.
  split; [split; [exact F|apply forall_nth; exact Fl']|]. split; [unfold pg_num; cbn [pcorners]; unfold point in *; lia|]. split; [exact L|]. split.
  - intros k Hk N. destruct (nth_error (pcorners p) k) as [q|] eqn:Q; [|apply nth_error_None in Q; exfalso; apply (Nat.lt_irrefl k); eapply Nat.lt_le_trans; [exact Hk|exact Q]]. apply (Ad k q N) in Q.
    assert (Q' : nth_error (reorient_poly re l None) (after_delete i k) = Some (reorient_point re q)) by (rewrite Nr, Q; reflexivity).
    destruct (corner_def (mkP o (reorient_poly re l None)) _ _ Q' (Fl' _ _ Q')) as (c & C & _). eauto.
  - intros Ap k c N C. destruct (corner_inv p k c C) as (q & Q & Fq & Vq & Pq). assert (Nk : k <> i) by congruence. pose proof (Ad k q Nk Q) as Q0.
    destruct (Hf _ _ Q0) as [f F0]. destruct (K _ q Q0 eq_refl f F0) as (K1 & K2 & K3).
    assert (Q' : nth_error (reorient_poly re l None) (after_delete i k) = Some (reorient_point re q)) by (rewrite Nr, Q0; reflexivity).
    destruct (corner_def (mkP o (reorient_poly re l None)) _ _ Q' K1) as (c' & C' & V' & P'). exists c'. split; [exact C'|]. split; [congruence|].
    assert (Ff : flat_ok (pplane p) f) by (apply (Fl 0%nat); auto).
    assert (Nf : nth_error (pcorners p) (if Nat.eqb i 0 then 1 else 0) = Some f). { rewrite <- F0, Dl. destruct (Nat.eqb_spec i 0) as [->|Z]; [reflexivity|]. destruct (Nat.ltb_spec 0 i); [reflexivity|lia]. }
    destruct (corner_def p _ f Nf Ff) as (cf & Cf & Vf & Pf).
    unfold first_corner. rewrite Cf. rewrite (dist_ext n _ _ (plane_at o (co (reorient_point re q))) (plane_at (pplane p) (co q)) P' Pq).
    rewrite (dist_ext n (co c) (co cf) (plane_at (pplane p) (co q)) (plane_at (pplane p) (co f)) Pq Pf). apply K3.
    apply (plane_apart (pplane p)); [now apply reduce_eps_pos|apply O|auto|auto|]. destruct (Ap cf c k Cf Nk C) as [Z|Z].
    + left. intros j Hj. rewrite <- (Pq j Hj), <- (Pf j Hj). auto.
    + right. rewrite (dist_ext n _ _ _ _ Pq Pf) in Z. eapply Rle_trans; [|exact Z]. eapply Rle_trans; [apply reduce_eps_le; [lra|exact F0]|]. apply Rmult_le_compat_l; [lra|].
      pose proof (plane_size (pplane p) f (proj1 O) Ff) as Ps. rewrite (dist_ext n (co cf) (co (porigin (pplane p))) _ _ Pf (pteq_refl n _)). lra.
Qed.

Lemma move_spec p i x epsilon b p' : 0 < (eps : R) -> 0 <= epsilon -> pg_ok n p ->
  (forall o re, orient_reduce n (pplane p) (pcorners p) (Some i) = Ret (o, re) -> expand_exact eps n o x) ->
  pg_move n p i x epsilon = Ret (b, p') ->
  (b = false -> p' = p) /\
  (b = true -> pg_ok n p' /\ pg_num p' = pg_num p /\ (i < pg_num p)%nat /\
     (forall k, (k < pg_num p)%nat -> exists c, pg_corner n p' k = Ret c) /\
     (apart eps n p i -> corners_kept eps n p p' (Some i) (fun k => k) (fun c => 2 * eps * dist n (co c) (first_corner eps n p i))) /\
     exists c, pg_corner n p' i = Ret c /\ valid c = true /\
       forall o re, orient_reduce n (pplane p) (pcorners p) (Some i) = Ret (o, re) -> dist2 n (co c) (co x) <= room n o x epsilon).
Proof.
  intros He Hp O Ex E. unfold pg_move in E. unfold point in *.
  destruct (orient_reduce n (pplane p) (pcorners p) (Some i)) as [[o re]| | |] eqn:Rd; cbn [obind] in E; try discriminate.
  assert (Fl : forall k q, nth_error (pcorners p) k = Some q -> skipped (Some i) k = false -> flat_ok (pplane p) q) by (intros k q Q _; eapply ok_corner; eauto).
  destruct (reduce_spec eps n (pplane p) (pcorners p) (Some i) o re He (proj1 O) Fl Rd) as [F K].
  pose proof (expand_spec eps n o x epsilon F Hp (Ex o re eq_refl)) as Xs.
  destruct (orient_expand n o x epsilon) as [[o2 p2]|]; [|injection E as <- <-; split; [auto|discriminate]].
  destruct Xs as (F2 & Vo & Fp & V2 & D & Kx).
  set (l := reorient_poly re (pcorners p) (Some i)) in *.
  assert (Ln : length l = length (pcorners p)) by apply reorient_length.
  destruct (Nat.lt_ge_cases i (length l)) as [L|L]; [|unfold point in *; rewrite set_undef in E by auto; discriminate].
  destruct (set_spec l i p2 L) as (l' & El & Ll & Rl). unfold point in *. rewrite El in E. cbn [obind] in E. injection E as <- <-. split; [discriminate|]. intros _.
  assert (Nr : forall k, k <> i -> nth_error l k = option_map (reorient_point re) (nth_error (pcorners p) k)).
  { intros k N. unfold l, reorient_poly. rewrite reorient_nth. cbn [skipped Nat.add]. destruct (Nat.eqb_spec k i); [contradiction|reflexivity]. }
  assert (Fi : first_left (Some i) = if Nat.eqb i 0 then 1%nat else 0%nat) by (unfold first_left, skipped; rewrite Nat.eqb_sym; reflexivity).
  assert (Hf : forall k q, k <> i -> nth_error (pcorners p) k = Some q -> exists f, nth_error (pcorners p) (first_left (Some i)) = Some f).
  { intros k q N Q. rewrite Fi. destruct (@nth_error (coords R) (pcorners p) (if Nat.eqb i 0 then 1 else 0)) as [f|] eqn:Z; [eauto|]. exfalso. apply nth_error_None in Z.
    assert (k < length (pcorners p))%nat as Hk by (apply nth_error_Some; congruence). unfold point in *. rewrite Ln in L. destruct (Nat.eqb_spec i 0); lia. }
  assert (Fl' : forall k q, nth_error l' k = Some q -> flat_ok o2 q).
  { intros k q Q. rewrite Rl in Q. destruct (Nat.eqb_spec k i) as [->|N]; [injection Q as <-; auto|]. rewrite (Nr k N) in Q. destruct (nth_error (pcorners p) k) as [q0|] eqn:Q0; [|discriminate]. cbn in Q. injection Q as <-.
    destruct (Hf k q0 N Q0) as [f Hf0]. apply Kx. refine (proj1 (K k q0 Q0 _ f Hf0)). cbn. now apply Nat.eqb_neq. }
  assert (Ok' : pg_ok n (mkP o2 l')) by (split; [exact F2|apply forall_nth; exact Fl']).
  assert (Nn : pg_num (mkP o2 l') = pg_num p) by (unfold pg_num; cbn [pcorners]; etransitivity; [exact Ll|exact Ln]).
  split; [exact Ok'|]. split; [exact Nn|]. split; [exact (eq_ind _ (fun z => (i < z)%nat) L _ Ln)|]. split; [intros k Hk; apply ok_all; [exact Ok'|rewrite Nn; exact Hk]|]. split.
  - intros Ap k c N C. assert (Nk : k <> i) by congruence. destruct (corner_inv p k c C) as (q & Q & Fq & Vq & Pq).
    destruct (Hf k q Nk Q) as [f F0]. destruct (K k q Q ltac:(cbn; now apply Nat.eqb_neq) f F0) as (K1 & K2 & K3).
    assert (Q' : nth_error l' k = Some (reorient_point re q)) by (rewrite Rl; destruct (Nat.eqb_spec k i); [contradiction|]; rewrite (Nr k Nk), Q; reflexivity).
    destruct (corner_def (mkP o2 l') _ _ Q' (Fl' _ _ Q')) as (c' & C' & V' & P'). exists c'. split; [exact C'|]. split; [congruence|].
    destruct (Kx _ K1) as [_ Pk]. assert (P2 : pteq n (co c') (plane_at o (co (reorient_point re q)))) by (eapply pteq_trans; [exact P'|exact Pk]).
    assert (Ff : flat_ok (pplane p) f) by (eapply ok_corner; eauto).
    rewrite Fi in F0. destruct (corner_def p _ f F0 Ff) as (cf & Cf & Vf & Pf).
    unfold first_corner. rewrite Cf. rewrite (dist_ext n _ _ (plane_at o (co (reorient_point re q))) (plane_at (pplane p) (co q)) P2 Pq).
    rewrite (dist_ext n (co c) (co cf) (plane_at (pplane p) (co q)) (plane_at (pplane p) (co f)) Pq Pf). apply K3.
    apply (plane_apart (pplane p)); [now apply reduce_eps_pos|apply O|auto|auto|]. destruct (Ap cf c k Cf Nk C) as [Z|Z].
    + left. intros j Hj. rewrite <- (Pq j Hj), <- (Pf j Hj). auto.
    + right. rewrite (dist_ext n _ _ _ _ Pq Pf) in Z. eapply Rle_trans; [|exact Z]. eapply Rle_trans; [apply reduce_eps_le; [lra|rewrite Fi; exact F0]|]. apply Rmult_le_compat_l; [lra|].
      pose proof (plane_size (pplane p) f (proj1 O) Ff) as Ps. rewrite (dist_ext n (co cf) (co (porigin (pplane p))) _ _ Pf (pteq_refl n _)). lra.
  - assert (Q' : nth_error l' i = Some p2) by (rewrite Rl; now rewrite Nat.eqb_refl).
    destruct (corner_def (mkP o2 l') i p2 Q' (Fl' _ p2 Q')) as (c' & C' & Vc' & Pc'). exists c'. split; [exact C'|]. split; [congruence|]. intros o1 re1 R1. injection R1 as <- <-.
    rewrite (dist2_ext n _ _ (plane_at o2 (co p2)) (co x)); auto using pteq_refl.
Qed.
End Ops.
