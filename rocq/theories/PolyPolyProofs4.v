(** Polygons in space all of whose corners are on one line, in exact arithmetic. *)
From Coq Require Import Reals List Bool Lra Lia Psatz Classical.
From Flocq Require Import Core.Raux.
From Verif Require Import Base Scalar ConstModel VecModel RotModel QuatModel VecSpec RSpec RotSpec RLib MatLib VecProofs VecProofs2 VecProofs4 ConstProofs ShapeSpec ShapeModel IntersectModel ShapeProofs ShapeProofs2 ShapeProofs3 BallProofs MotionProofs2 PolyModel PolySpec PolyProofs PolyIntersectModel EvenOddSpec EvenOddProofs RegionSpec RegionProofs PolyShapeProofs SpaceSpec PolySpaceProofs PolySpaceProofs2 PolyPolyModel PolyPolyProofs PolyPolyProofs3.
Import ListNotations.
Open Scope R_scope.
#[local] Existing Instance Rnum | 0.
#[local] Existing Instance eps0.

(** * The region of corners on the first axis is the interval between the outermost ones *)
Lemma path_kept {A} (P : A -> Prop) l : forall a z, (forall x y, In (x, y) (combine (a :: l) (l ++ [z])) -> P x -> P y) ->
  (P a -> forall c, In c (a :: l) -> P c) /\ ((exists c, In c (a :: l) /\ P c) -> P z).
Proof.
  induction l as [|b l IH]; intros a z K.
  - split; [intros Pa c [<-|[]]; auto|]. intros (c & [<-|[]] & Pc). apply (K a z); cbn; auto.
  - cbn [app combine] in K. destruct (IH b z) as [I1 I2]. { intros x y I. apply K. now right. }
    assert (Kb : P a -> P b) by (apply K; now left). split.
    + intros Pa c [<-|I]; auto.
    + intros (c & [<-|I] & Pc); apply I2; [exists b; split; [now left|auto]|eauto].
Qed.
Lemma cyclic {A} (P : A -> Prop) l : (forall x y, In (x, y) (sides l) -> P x -> P y) -> (exists c, In c l /\ P c) -> forall c, In c l -> P c.
Proof. destruct l as [|a l]; [intros _ (c & [] & _)|]. intros K Ex. destruct (path_kept P l a a K) as [I1 I2]. auto. Qed.
Definition bounds_of (l : list (coords R)) (lo hi : R) : Prop :=
  (exists c, In c l /\ co c 0%nat = lo) /\ (exists c, In c l /\ co c 0%nat = hi) /\ forall c, In c l -> lo <= co c 0%nat <= hi.
Lemma line_region l lo hi u : bounds_of l lo hi -> (forall c, In c l -> co c 1%nat = 0) -> (region l u <-> lo <= u 0%nat <= hi /\ u 1%nat = 0).
Proof.
  intros (Lo & Hi & B) F. split.
  - intros Rg.
    assert (A1 : ldot (1, 0) u <= hi) by (apply (region_half l); auto; intros c I; specialize (B c I); unfold ldot; cbn [fst snd]; lra).
    assert (A2 : ldot (-1, 0) u <= - lo) by (apply (region_half l); auto; intros c I; specialize (B c I); unfold ldot; cbn [fst snd]; lra).
    assert (A3 : ldot (0, 1) u <= 0) by (apply (region_half l); auto; intros c I; unfold ldot; cbn [fst snd]; rewrite (F c I); lra).
    assert (A4 : ldot (0, -1) u <= 0) by (apply (region_half l); auto; intros c I; unfold ldot; cbn [fst snd]; rewrite (F c I); lra).
    unfold ldot in *. cbn [fst snd] in *. lra.
  - intros [Tu U1]. left. destruct (classic (forall x y, In (x, y) (sides l) -> co x 0%nat <= u 0%nat -> co y 0%nat <= u 0%nat)) as [K|K].
    + assert (All := cyclic (fun c => co c 0%nat <= u 0%nat) l K). destruct Lo as (cl & Il & El). destruct Hi as (ch & Ih & Eh).
      assert (X : co ch 0%nat <= u 0%nat) by (apply All; auto; exists cl; split; auto; lra). apply (boundary_eq l (co ch)); [|now apply corner_region].
      intros [|[|i]] Hi'; [lra|rewrite (F ch Ih); lra|lia].
    + apply not_all_ex_not in K. destruct K as (x & K). apply not_all_ex_not in K. destruct K as (y & K). apply imply_to_and in K. destruct K as [I K]. apply imply_to_and in K. destruct K as [X Y].
      apply Rnot_le_lt in Y. exists x, y. split; auto. destruct (sides_in l x y I) as [Ix Iy]. exists ((u 0%nat - co x 0%nat) / (co y 0%nat - co x 0%nat)).
      assert (D : 0 < co y 0%nat - co x 0%nat) by lra. split.
      * split; [apply Rmult_le_pos; [lra|left; now apply Rinv_0_lt_compat]|]. apply Rmult_le_reg_r with (co y 0%nat - co x 0%nat); auto. unfold Rdiv. rewrite Rmult_assoc, Rinv_l by lra. lra.
      * intros [|[|i]] Hi'; [field; lra|rewrite (F x Ix), (F y Iy), U1; ring|lia].
Qed.
Definition bstep (b : R * R) (q : coords R) : R * R := (if Rlt_bool (co q 0%nat) (fst b) then co q 0%nat else fst b, if Rlt_bool (snd b) (co q 0%nat) then co q 0%nat else snd b).
Lemma fold_bounds (l : list (coords R)) lo0 hi0 r : lo0 <= hi0 -> fold_left bstep l (lo0, hi0) = r ->
  fst r <= lo0 /\ hi0 <= snd r /\ (forall c, In c l -> fst r <= co c 0%nat <= snd r) /\
  (fst r = lo0 \/ exists c, In c l /\ co c 0%nat = fst r) /\ (snd r = hi0 \/ exists c, In c l /\ co c 0%nat = snd r).
Proof.
  revert lo0 hi0. induction l as [|c l IH]; intros lo0 hi0 H; cbn [fold_left].
  - intros <-. cbn [fst snd]. split; [lra|]. split; [lra|]. split; [intros c []|]. auto.
  - unfold bstep at 2. cbn [fst snd].
    set (lo1 := if Rlt_bool (co c 0%nat) lo0 then co c 0%nat else lo0). set (hi1 := if Rlt_bool hi0 (co c 0%nat) then co c 0%nat else hi0).
    assert (L : lo1 <= lo0 /\ lo1 <= co c 0%nat /\ (lo1 = lo0 \/ co c 0%nat = lo1)) by (unfold lo1; destruct (Rlt_bool_spec (co c 0%nat) lo0); repeat split; try lra; auto).
    assert (M : hi0 <= hi1 /\ co c 0%nat <= hi1 /\ (hi1 = hi0 \/ co c 0%nat = hi1)) by (unfold hi1; destruct (Rlt_bool_spec hi0 (co c 0%nat)); repeat split; try lra; auto).
    destruct L as (L1 & L2 & L3). destruct M as (M1 & M2 & M3). intros F. destruct (IH lo1 hi1 ltac:(lra) F) as (A & B & C & D & E).
    split; [lra|]. split; [lra|]. split; [intros c' [<-|I]; [lra|auto]|]. split.
    + destruct D as [D|(c' & I & D)]; [|right; exists c'; split; [now right|auto]]. destruct L3 as [L3|L3]; [left; congruence|right; exists c; split; [now left|congruence]].
    + destruct E as [E|(c' & I & E)]; [|right; exists c'; split; [now right|auto]]. destruct M3 as [M3|M3]; [left; congruence|right; exists c; split; [now left|congruence]].
Qed.
Lemma line_bounds_ret l : l <> [] -> exists lo hi, line_bounds l = Ret (lo, hi) /\ bounds_of l lo hi.
Proof.
  destruct l as [|c l]; [congruence|]. intros _. destruct (fold_bounds (c :: l) (co c 0%nat) (co c 0%nat) _ ltac:(lra) eq_refl) as (A & B & C & D & E).
  set (q := fold_left bstep (c :: l) (co c 0%nat, co c 0%nat)) in *. exists (fst q), (snd q). split; [rewrite <- surjective_pairing; reflexivity|].
  split; [|split; auto]; [destruct D as [D|D]|destruct E as [E|E]]; auto; exists c; split; auto; now left.
Qed.
Lemma same_iff n (a b : coords R) : same n a b = true <-> valid a = true /\ valid b = true /\ pteq n (co a) (co b).
Proof.
  unfold same. cbn [neps Rnum]. unfold epsilon, eps0. rewrite (vec_equal_iff 0 n). unfold scale_eps_arr. rewrite scale_eps_eps0. split; intros (A & B & C); repeat split; auto.
  - intros i Hi. specialize (C i Hi). pose proof (Rabs_pos (co a i - co b i)). destruct (Req_dec (co a i - co b i) 0); [lra|]. pose proof (Rabs_pos_lt _ H0). lra.
  - intros i Hi. rewrite (C i Hi), Rminus_diag_eq, Rabs_R0 by auto. lra.
Qed.

Definition spans_line (p : polygon R) : Prop := valid (pax0 (pplane p)) = true /\ valid (pax1 (pplane p)) = false.
Section Lines.
Variable n : nat.
Variables p1 p2 : polygon R.
Notation o1 := (pplane p1).
Notation o2 := (pplane p2).
Notation a0 := (co (pax0 o1)).
Notation b0 := (co (pax0 o2)).
Hypothesis O1 : pg_ok n p1.
Hypothesis O2 : pg_ok n p2.
Hypothesis S1 : spans_line p1.
Hypothesis S2 : spans_line p2.
Lemma line_frame p : pg_ok n p -> spans_line p -> valid (porigin (pplane p)) = true /\ norm2 n (co (pax0 (pplane p))) = 1 /\ forall c, In c (pcorners p) -> co c 1%nat = 0.
Proof.
  intros [(F1 & F2 & F3 & F4) Fl] [V0 V1]. split; [auto|]. split; [auto|]. rewrite Forall_forall in Fl. intros c I. now apply (Fl c I).
Qed.
Lemma line_basis : common_basis n o1 o2 = (if Rlt_bool 0 (inner n b0 a0 * inner n b0 a0) then 1%nat else 0%nat, vec_scale n (pax0 o2) (inner n b0 a0), inner n b0 a0 * inner n b0 a0).
Proof.
  destruct S1 as [V0 V1]. destruct S2 as [W0 W1]. destruct (line_frame p2 O2 S2) as (_ & U & _). unfold common_basis, proj_axis. rewrite V1, W1, (dot_inner n), (sqr_mag_norm2 eps0 n).
  rewrite (norm2_ext n _ (fun i => inner n b0 a0 * b0 i)) by (intros i Hi; rewrite scale_co by auto; ring). rewrite norm2_scal, U. cbn [nltb nmul neps Rnum]. unfold epsilon, eps0. rewrite Rmult_0_l, Rmult_1_r. reflexivity.
Qed.
(** Lines at right angles through one point: flags that nothing has written are read. *)
Lemma lines_crash : inner n b0 a0 = 0 -> pteq n (co (porigin o1)) (co (porigin o2)) -> forall proper, i_pg_pg n p1 p2 proper = Undef.
Proof.
  intros Z E proper. destruct (line_frame p1 O1 S1) as (Vo1 & U1 & _). destruct (line_frame p2 O2 S2) as (Vo2 & U2 & _).
  unfold i_pg_pg, orient_orient. rewrite Vo1, Vo2. destruct S1 as [V0 V1]. destruct S2 as [W0 W1]. rewrite V0, W0. cbn [negb orb]. rewrite line_basis, Z, Rlt_bool_false by lra.
  unfold meet_point. rewrite V1, !(dot_inner n).
  assert (Oz : forall y, inner n y (co (vec_sub n (porigin o2) (porigin o1))) = 0).
  { intros y. transitivity (inner n y (fun _ => 0)). { apply inner_ext; auto. intros i Hi. rewrite sub_co, (E i Hi) by auto. ring. } unfold inner. apply Rsum_zero. intros; ring. }
  rewrite !Oz. change (nopp (T := R)) with Ropp. rewrite Ropp_0. unfold differ.
  replace (same n _ _) with true; [reflexivity|]. symmetry. apply same_iff. split; [|split].
  - unfold vec_sub, vec_scale. cbn [valid]. now rewrite V0, W0.
  - unfold vec_sub. cbn [valid]. now rewrite Vo1, Vo2.
  - intros i Hi. rewrite !sub_co, !scale_co, (E i Hi) by auto. ring.
Qed.
(** Where the region of a polygon on a line is. *)
Lemma line_placed p lo hi y : pg_ok n p -> spans_line p -> bounds_of (pcorners p) lo hi ->
  (space_region n p y <-> exists t, lo <= t <= hi /\ forall i, (i < n)%nat -> y i = co (porigin (pplane p)) i + t * co (pax0 (pplane p)) i).
Proof.
  intros O S B. destruct (line_frame p O S) as (_ & _ & F). destruct S as [V0 V1]. split.
  - intros (u & Rg & E). apply (line_region _ lo hi u B F) in Rg. destruct Rg as [T _]. exists (u 0%nat). split; auto. intros i Hi. rewrite (E i Hi). unfold placed. rewrite V0, V1. ring.
  - intros (t & T & E). exists (fun k => match k with O => t | _ => 0 end). split; [now apply (line_region _ lo hi _ B F)|]. intros i Hi. rewrite (E i Hi). unfold placed. rewrite V0, V1. ring.
Qed.
(** What the code compares when the offset between the origins is along the second line. *)
Lemma lines_answer k lo1 hi1 lo2 hi2 : inner n b0 a0 <> 0 -> bounds_of (pcorners p1) lo1 hi1 -> bounds_of (pcorners p2) lo2 hi2 ->
  (forall i, (i < n)%nat -> co (porigin o2) i - co (porigin o1) i = k * b0 i) ->
  exists r, i_pg_pg n p1 p2 false = Ret r /\
    (r = true <-> if Rlt_bool 0 (inner n a0 b0) then lo2 + k <= hi1 /\ lo1 <= hi2 + k else - (hi2 + k) <= hi1 /\ lo1 <= - (lo2 + k)).
Proof.
  intros Z B1 B2 K. destruct (line_frame p1 O1 S1) as (Vo1 & U1 & _). destruct (line_frame p2 O2 S2) as (Vo2 & U2 & _).
  unfold i_pg_pg, orient_orient. rewrite Vo1, Vo2. destruct S1 as [V0 V1]. destruct S2 as [W0 W1]. rewrite V0, W0. cbn [negb orb]. rewrite line_basis, Rlt_bool_true by (apply Rsqr_pos_lt; auto).
  unfold meet_line. rewrite V1, W1. cbn [negb andb]. rewrite !(dot_inner n).
  assert (P : inner n (co (vec_sub n (porigin o2) (porigin o1))) b0 = k).
  { transitivity (inner n (fun i => k * b0 i) b0). { apply inner_ext; auto. intros i Hi. rewrite sub_co by auto. now apply K. } rewrite inner_scal_l. fold (norm2 n b0). rewrite U2. ring. }
  rewrite P. unfold differ. replace (same n _ _) with true.
  2:{ symmetry. apply same_iff. split; [unfold vec_sub; cbn [valid]; now rewrite Vo1, Vo2|]. split; [unfold vec_scale; cbn [valid]; auto|]. intros i Hi. rewrite sub_co, scale_co, K by auto. ring. }
  cbn [negb obind poly_poly_intersect o1_is_line o2_is_line andb orb m_p1 m_v1 m_p2 m_v2].
  destruct (line_bounds_ret (pcorners p1)) as (l1 & h1 & E1 & C1). { destruct B1 as ((c & I & _) & _). intros Z0. rewrite Z0 in I. destruct I. }
  destruct (line_bounds_ret (pcorners p2)) as (l2 & h2 & E2 & C2). { destruct B2 as ((c & I & _) & _). intros Z0. rewrite Z0 in I. destruct I. }
  assert (Un : forall l a b c d, bounds_of l a b -> bounds_of l c d -> a = c /\ b = d).
  { intros l a b c d ((x & Ix & Ex) & (y & Iy & Ey) & Bx) ((z & Iz & Ez) & (w & Iw & Ew) & Bz). pose proof (Bx z Iz). pose proof (Bx w Iw). pose proof (Bz x Ix). pose proof (Bz y Iy). lra. }
  destruct (Un _ _ _ _ _ B1 C1) as [<- <-]. destruct (Un _ _ _ _ _ B2 C2) as [<- <-].
  unfold seen_bounds. unfold point in *. rewrite E1, E2. cbn [obind]. cbn [nltb Rnum]. change (n0 (T := R)) with 0. change (n1 (T := R)) with 1. unfold zero2, pt2, at_, get. cbn [el nth]. change (n0 (T := R)) with 0. change (nopp (T := R)) with Ropp. change (nsub (T := R)) with Rminus. cbn [nleb Rnum].
  rewrite (Rlt_bool_false 1 0) by lra. destruct (Rlt_bool 0 (inner n a0 b0)).
  - rewrite (Rlt_bool_false 1 0) by lra. eexists. split; [reflexivity|]. rewrite andb_true_iff, !Rleb_iff. lra.
  - rewrite (Rlt_bool_true (Ropp 1) 0) by lra. eexists. split; [reflexivity|]. rewrite andb_true_iff, !Rleb_iff. lra.
Qed.
(** Parallel lines: the answer is right. *)
Lemma lines_exact sg : sg = 1 \/ sg = -1 -> (forall i, (i < n)%nat -> b0 i = sg * a0 i) -> pcorners p1 <> [] -> pcorners p2 <> [] ->
  exists r, i_pg_pg n p1 p2 false = Ret r /\ (r = true <-> meet (space_region n p1) (space_region n p2)).
Proof.
  intros Sg Eb N1 N2. destruct (line_frame p1 O1 S1) as (Vo1 & U1 & _). destruct (line_frame p2 O2 S2) as (Vo2 & U2 & _).
  destruct (line_bounds_ret _ N1) as (lo1 & hi1 & _ & B1). destruct (line_bounds_ret _ N2) as (lo2 & hi2 & _ & B2).
  assert (I1 : inner n b0 a0 = sg). { transitivity (inner n (fun i => sg * a0 i) a0); [now apply inner_ext|]. rewrite inner_scal_l. fold (norm2 n a0). rewrite U1. ring. }
  assert (Sn : sg <> 0) by (destruct Sg; lra). assert (Sq : sg * sg = 1) by (destruct Sg as [-> | ->]; ring).
  set (k := inner n (co (vec_sub n (porigin o2) (porigin o1))) b0).
  assert (P1 : forall y, space_region n p1 y <-> exists t, lo1 <= t <= hi1 /\ forall i, (i < n)%nat -> y i = co (porigin o1) i + t * a0 i) by (intros; now apply line_placed).
  assert (P2 : forall y, space_region n p2 y <-> exists t, lo2 <= t <= hi2 /\ forall i, (i < n)%nat -> y i = co (porigin o2) i + t * b0 i) by (intros; now apply line_placed).
  destruct (classic (forall i, (i < n)%nat -> co (porigin o2) i - co (porigin o1) i = k * b0 i)) as [K|K].
  - destruct (lines_answer k lo1 hi1 lo2 hi2 ltac:(rewrite I1; auto) B1 B2 K) as (r & Er & Hr). exists r. split; auto. rewrite Hr, inner_comm, I1.
    assert (Nz : exists i, (i < n)%nat /\ a0 i <> 0).
    { apply NNPP. intros X. assert (Z : norm2 n a0 = 0); [|lra]. unfold norm2, inner. apply Rsum_zero. intros i Hi. destruct (Req_dec (a0 i) 0) as [->|]; [ring|]. destruct X. eauto. }
    assert (M : meet (space_region n p1) (space_region n p2) <-> exists s t, lo1 <= s <= hi1 /\ lo2 <= t <= hi2 /\ s = sg * (k + t)).
    { split.
      - intros (y & Y1 & Y2). apply P1 in Y1. apply P2 in Y2. destruct Y1 as (s & Hs & Es). destruct Y2 as (t & Ht & Et). exists s, t. split; auto. split; auto. destruct Nz as (i & Hi & Nz).
        apply Rmult_eq_reg_r with (a0 i); auto. specialize (Es i Hi). specialize (Et i Hi). specialize (K i Hi). rewrite (Eb i Hi) in *. lra.
      - intros (s & t & Hs & Ht & E). exists (fun i => co (porigin o1) i + s * a0 i). split; [apply P1; exists s; split; auto|]. apply P2. exists t. split; auto. intros i Hi. specialize (K i Hi). rewrite (Eb i Hi) in *. rewrite E. lra. }
    rewrite M. destruct Sg as [-> | ->].
    + rewrite Rlt_bool_true by lra. split.
      * intros [A B]. destruct (Rle_dec lo1 (lo2 + k)) as [C|C].
        -- exists (lo2 + k), lo2. destruct B2 as ((c & I & E) & _ & B2). specialize (B2 c I). lra.
        -- exists lo1, (lo1 - k). destruct B1 as ((c & I & E) & _ & B1). specialize (B1 c I). lra.
      * intros (s & t & Hs & Ht & E). lra.
    + rewrite Rlt_bool_false by lra. split.
      * intros [A B]. destruct (Rle_dec lo1 (- (hi2 + k))) as [C|C].
        -- exists (- (hi2 + k)), hi2. destruct B2 as ((c & I & E) & _ & B2). specialize (B2 c I). lra.
        -- exists lo1, (- lo1 - k). destruct B1 as ((c & I & E) & _ & B1). specialize (B1 c I). lra.
      * intros (s & t & Hs & Ht & E). lra.
  - exists false. split.
    + unfold i_pg_pg, orient_orient. rewrite Vo1, Vo2. destruct S1 as [V0 V1]. destruct S2 as [W0 W1]. rewrite V0, W0. cbn [negb orb]. rewrite line_basis, Rlt_bool_true by (apply Rsqr_pos_lt; lra).
      unfold meet_line. rewrite V1, W1. cbn [negb andb]. rewrite (dot_inner n (vec_sub n (porigin o2) (porigin o1))). fold k. unfold differ. destruct (same n _ _) eqn:Sm; [|reflexivity]. exfalso. apply K. apply same_co in Sm.
      intros i Hi. specialize (Sm i Hi). rewrite sub_co, scale_co in Sm by auto. lra.
    + split; [discriminate|]. intros (y & Y1 & Y2). exfalso. apply P1 in Y1. apply P2 in Y2. destruct Y1 as (s & Hs & Es). destruct Y2 as (t & Ht & Et). apply K.
      assert (Ok : forall i, (i < n)%nat -> co (porigin o2) i - co (porigin o1) i = (sg * s - t) * b0 i).
      { intros i Hi. specialize (Es i Hi). specialize (Et i Hi). rewrite (Eb i Hi) in *. transitivity (sg * sg * s * a0 i - t * (sg * a0 i)); [rewrite Sq; lra|ring]. }
      assert (k = sg * s - t) as ->; [|exact Ok]. unfold k. transitivity (inner n (fun i => (sg * s - t) * b0 i) b0). { apply inner_ext; auto. intros i Hi. rewrite sub_co by auto. now apply Ok. }
      rewrite inner_scal_l. fold (norm2 n b0). rewrite U2. ring.
Qed.
End Lines.
