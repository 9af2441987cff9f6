(** C54: the miniball search; and BoundingSphere of a list (C43). *)
From Coq Require Import ZArith Reals Bool List Lia Lra Permutation SpecFloat Arith.
From Flocq Require Import Core.Raux Core.Zaux Core.Defs IEEE754.BinarySingleNaN.
From Verif Require Import Base Scalar ConstModel VecModel ShapeModel IntersectModel RSpec VecSpec RotSpec ShapeSpec RLib MatLib OrdLib B64Lib VecProofs VecProofs4 ShapeProofs ShapeProofs2 ShapeProofs3 BallProofs SphereProofs PropSphere MiniballModel MiniballSpec MiniballProofs MiniballProofs2 MiniballProofs3 MiniballProofs4 MiniballProofs5.
Import ListNotations.
Open Scope R_scope.

(** * For any arithmetic *)
(** Move to front ends and returns for every list, every dimension and every arithmetic, also with rounding and NaN:
    the list afterwards is a permutation of the points put in and at most d + 1 of them are in use. *)
Theorem C54_move_to_front_ends : forall T (N : Num T) d (tau : T) fuel l sup b,
  exists st, build d tau fuel false (mkMB l sup b) = Some (Ret st) /\ Permutation l (mL st) /\ (msup st <= length l)%nat /\ (bs (mB st) <= d + 1)%nat.
Proof.
  intros T N d tau fuel l sup b. unfold build. cbn [mL].
  destruct (mtf_any d tau (S (length l)) (length l) (mkMB l 0 (basis_reset d b))) as (st & E & P & S & B & M); auto.
  { unfold small. cbn. lia. }
  exists st. split; auto. split; auto. split; auto. unfold small in S. lia.
Qed.
(** The pivoting search, unless it goes on for ever, returns; there is no access out of range, for every non-empty list. *)
Theorem C54_pivot_safe : forall T (N : Num T) d (tau : T) fuel l sup b, nleb n0 n0 = true -> l <> [] ->
  build d tau fuel true (mkMB l sup b) = None \/
  exists st, build d tau fuel true (mkMB l sup b) = Some (Ret st) /\ Permutation l (mL st) /\ (bs (mB st) <= d + 1)%nat.
Proof.
  intros T N d tau fuel l sup b Z Ne. destruct (build_any d tau Z fuel true (mkMB l sup b) Ne) as [(_ & X)|(st & E & P & S)]; [left; auto|right].
  exists st. split; auto. split; auto. lia.
Qed.
Example C54_pivot_safe_example : (forall m, nleb (Num := B64 m) (n0 (H := B64 m)) (n0 (H := B64 m)) = true) /\ (forall eps, nleb (Num := Rnum eps) (n0 (H := Rnum eps)) (n0 (H := Rnum eps)) = true).
Proof. split; intros; [reflexivity|]. cbn. apply Rle_bool_true. apply Rle_refl. Qed.

(** * In exact arithmetic *)
(** A ball with points on its sphere and the centre in their convex hull is the smallest ball around them. *)
Lemma hull_smallest d c r l s : List.incl s l -> encloses d c r l -> on_sphere d c r s -> in_hull d s c -> smallest d c r l.
Proof.
  intros I E O (w & W1 & W2 & W3 & W4). split; auto. intros c' r' E'.
  assert (M : r + dist2 d c c' <= r').
  { apply (cert_min d c r s [] c' r').
    - exists w, []. cbn. repeat split; auto; [lra|]. intros i Hi. rewrite (W4 i Hi). ring.
    - intros p J. unfold pw. rewrite (O p J). ring.
    - intros p [].
    - split; [|intros p []]. intros p J. specialize (E' p (I p J)). unfold pw. lra. }
  pose proof (dist2_nonneg d c c'). split; [lra|]. intros L i Hi.
  assert (D : dist2 d c c' = 0) by lra. pose proof (norm2_zero d _ D i Hi) as X. cbv beta in X. lra.
Qed.

(** The search ends with the smallest ball: it encloses every point, the support points are among the points and on the
    sphere, the centre is in their convex hull, and there are at most d + 1 of them.  With tau = 0 the list can be any. *)
Definition search_result (d : nat) (l : list (list R)) (st : mbstate R) : Prop :=
  let c := pc (center_of (mB st)) in let r := bcr (mB st) in let support := firstn (msup st) (mL st) in
  Permutation l (mL st) /\ encloses d c r l /\ on_sphere d c r support /\ in_hull d support c /\ smallest d c r l /\
  length support = bs (mB st) /\ (length support <= d + 1)%nat.
Theorem C54_search_partial : forall (eps : Epsilon) d tau l, 0 <= tau -> l <> [] -> spread d tau l ->
  exists enough, forall fuel pivoting sup, (enough < fuel)%nat ->
    exists st, build d tau fuel pivoting (mkMB l sup (basis_make d)) = Some (Ret st) /\ search_result d l st.
Proof.
  intros eps d tau l Ht Ne (c0 & R2 & A & Sp). destruct (build_ok eps d tau Ht l R2 c0 Sp A Ne) as (N & HN). exists N. intros fuel pv sup Hf.
  destruct (HN fuel pv (basis_make d) sup Hf (basis_make_ok eps d)) as (st & E & (P & Bs & Ms & En & On & Hu)). exists st. split; auto.
  assert (Up : (bs (mB st) <= S d)%nat).
  { destruct (build_any d tau (proj2 C54_pivot_safe_example eps) fuel pv (mkMB l sup (basis_make d)) Ne) as [(_ & X)|(st' & E' & _ & Q)]; [rewrite E in X; discriminate|]. rewrite E in E'. injection E' as <-. exact Q. }
  unfold search_result. cbn zeta. change (pc (center_of (mB st))) with (cc (mB st)).
  split; auto. split; auto. split; auto. split; auto. split; [|split; [auto|lia]].
  apply hull_smallest with (s := firstn (msup st) (mL st)); auto. intros p I. eapply Permutation_in; [apply Permutation_sym; exact P|]. eapply incl_firstn; eauto.
Qed.
Theorem C54_search_without_cutoff : forall (eps : Epsilon) d l, l <> [] ->
  exists enough, forall fuel pivoting sup, (enough < fuel)%nat ->
    exists st, build d 0 fuel pivoting (mkMB l sup (basis_make d)) = Some (Ret st) /\ search_result d l st.
Proof.
  intros eps d l Ne. apply C54_search_partial; auto; [lra|].
  assert (B : exists R2, encloses d (fun _ => 0) R2 l).
  { clear. induction l as [|p l (R2 & I)]; [exists 0; intros p []|]. exists (Rmax R2 (dist2 d (pc p) (fun _ => 0))). intros q [<-|J]; [apply Rmax_r|]. eapply Rle_trans; [apply I; auto|apply Rmax_l]. }
  destruct B as (R2 & B). exists (fun _ => 0), R2. split; auto. intros b p _ _. right. intros x _. pose proof (dist2_nonneg d (pc p) x). lra.
Qed.

(** Any list meets the hypothesis unless a point is very near to, but not in, the affine hull of others; a right triangle: *)
Example C54_search_example : spread 2 mb_eps [[0; 0]; [3; 0]; [0; 4]].
Proof.
  exists (fun i => match i with O => 3 / 2 | _ => 2 end), (25 / 4). split.
  { intros p [<-|[<-|[<-|[]]]]; unfold dist2, norm2, inner, pc; cbn; lra. }
  assert (Far : forall b p (y : nat -> R) k, (forall q, In q b -> inner 2 (pc q) y = k) -> 1 <= (inner 2 (pc p) y - k) * (inner 2 (pc p) y - k) -> norm2 2 y <= 25 ->
    forall x, in_affine 2 b x -> mb_eps * (25 / 4) <= 2 * dist2 2 (pc p) x).
  { intros b p y k Hq Hp Hy x X. rewrite <- (affine_inner 2 b x y k X Hq) in Hp. pose proof (cauchy_schwarz 2 (fun i => pc p i - x i) y) as C.
    replace (inner 2 (fun i => pc p i - x i) y) with (inner 2 (pc p) y - inner 2 x y) in C by (unfold inner; cbn; ring). fold (dist2 2 (pc p) x) in C.
    pose proof (dist2_nonneg 2 (pc p) x). pose proof (norm2_nonneg 2 y). assert (mb_eps <= 1 / 1000) by (unfold mb_eps; lra). nra. }
  intros b p Ib Ip. destruct (in_dec (list_eq_dec Req_EM_T) p b) as [J|J].
  { left. destruct (In_nth b p [] J) as (k & Hk & <-). apply affine_member; auto. }
  right. destruct Ip as [<-|[<-|[<-|[]]]].
  - apply (Far b [0; 0] (fun i => match i with O => 4 | _ => 3 end) 12); try (unfold norm2, inner, pc; cbn; lra).
    intros q I. destruct (Ib q I) as [<-|[<-|[<-|[]]]]; [contradiction| |]; unfold inner, pc; cbn; lra.
  - apply (Far b [3; 0] (fun i => match i with O => 1 | _ => 0 end) 0); try (unfold norm2, inner, pc; cbn; lra).
    intros q I. destruct (Ib q I) as [<-|[<-|[<-|[]]]]; [|contradiction|]; unfold inner, pc; cbn; lra.
  - apply (Far b [0; 4] (fun i => match i with O => 0 | _ => 1 end) 0); try (unfold norm2, inner, pc; cbn; lra).
    intros q I. destruct (Ib q I) as [<-|[<-|[<-|[]]]]; [| |contradiction]; unfold inner, pc; cbn; lra.
Qed.

(** * BoundingSphere *)

Lemma fold_max_zero (f : list R -> R) l : (forall p, In p l -> f p <= 0) -> fold_left (fun m p => if Rlt_bool m (f p) then f p else m) l 0 = 0.
Proof. induction l as [|p l IH]; intros Hl; cbn; auto. rewrite Rlt_bool_false by (apply Hl; left; auto). apply IH. intros q I. apply Hl. right. auto. Qed.
(** The points as the search sees them. *)
Definition plain (n : nat) (c : list (point R)) : list (list R) := map (fun p => tab n (co p)) c.
Lemma pc_plain n (p : point R) i : (i < n)%nat -> pc (tab n (co p)) i = co p i.
Proof. intros Hi. unfold pc. now apply nth_tab. Qed.

(** BoundingSphere of a list with two points that differ: the assertion holds, and the ball is the smallest around the
    points.  (With all points equal the assertion divides by the radius 0; see below.) *)
Theorem C43_points_exact : forall (eps : Epsilon) n (c : list (point R)), 0 < eps -> spread n mb_eps (plain n c) ->
  (exists p q i, In p c /\ In q c /\ (i < n)%nat /\ co p i <> co q i) ->
  exists enough, forall fuel, (enough < fuel)%nat -> exists b, bounding_sphere n mb_eps fuel c = Some (Ret b) /\ ball_valid b = forallb valid c /\ 0 <= radius b /\
    (forall p, In p c -> in_ball n b (co p)) /\
    (forall b', (forall p, In p c -> in_ball n b' (co p)) -> radius b <= radius b' /\ (radius b' <= radius b -> forall i, (i < n)%nat -> co (center b') i = co (center b) i)).
Proof.
  intros eps n c He Sp (p0 & q0 & i0 & Ip0 & Iq0 & Hi0 & Df).
  assert (Ne : plain n c <> []) by (destruct c; [destruct Ip0|discriminate]).
  assert (Pl : forall p, In p c -> In (tab n (co p)) (plain n c)) by (intros p I; exact (in_map (fun p : point R => tab n (co p)) c p I)).
  destruct (C54_search_partial eps n mb_eps (plain n c) ltac:(unfold mb_eps; lra) Ne Sp) as (N & HN). exists N. intros fuel Hf.
  destruct (HN fuel true 0%nat Hf) as (st & E & (P & En & On & _ & (_ & Sm) & Lb & _)). unfold bounding_sphere.
  change (map (fun p => tab n (fun j => at_ p j)) c) with (plain n c). rewrite E. cbn [rbind].
  set (r := bcr (mB st)) in *. set (cn := pc (center_of (mB st))) in *.
  assert (Rp : 0 < r).
  { destruct (Rle_lt_dec r 0) as [L|L]; auto. exfalso. apply Df.
    assert (Z : forall p, In p c -> co p i0 = cn i0).
    { intros p I. pose proof (En _ (Pl p I)) as X. pose proof (dist2_nonneg n (pc (tab n (co p))) cn).
      assert (D : dist2 n (pc (tab n (co p))) cn = 0) by lra. pose proof (norm2_zero n _ D i0 Hi0) as Y. cbv beta in Y. rewrite pc_plain in Y by auto. lra. }
    rewrite (Z p0), (Z q0); auto. }
  assert (Acc : exists s, accuracy n st = Ret (0, s)).
  { unfold accuracy. rewrite (proj2 (Nat.eqb_eq _ _) Lb). cbn [oassert].
    assert (Ex : forall p, excess n (mB st) p = dist2 n (pc p) cn - r) by (intros p; rewrite (excess_pw eps); reflexivity).
    cbn [nltb ndiv Rnum]. change (@n0 R (Rnum eps)) with 0.
    rewrite (fold_max_zero (fun p => mb_abs (excess n (mB st) p))).
    - rewrite (fold_max_zero (fun p => excess n (mB st) p)).
      + eexists. f_equal. f_equal. unfold Rdiv. ring.
      + intros p I. rewrite Ex. assert (I' : In p (plain n c)). { eapply Permutation_in; [apply Permutation_sym; exact P|]. rewrite <- (firstn_skipn (msup st) (mL st)). apply in_app_iff. auto. } specialize (En p I'). lra.
    - intros p I. rewrite Ex. rewrite (On p I). unfold mb_abs. cbn [nltb nopp Rnum]. change (@n0 R (Rnum eps)) with 0. rewrite Rlt_bool_false by lra. lra. }
  destruct Acc as (s & Acc). rewrite Acc. cbn [rbind fst]. cbn [nltb neps nsqrt Rnum]. change (0 < eps) in He. rewrite Rlt_bool_true by exact He. cbn [oassert].
  eexists. split; [reflexivity|]. rewrite make_pos by apply sqrt_pos. split; [reflexivity|]. cbn [radius center]. split; [apply sqrt_pos|].
  assert (Dc : forall x : nat -> R, dist n (co (mkC (tab n (fun j => get (center_of (mB st)) j)) (forallb valid c))) x = sqrt (dist2 n x cn)).
  { intros x. unfold dist. f_equal. rewrite dist2_sym. unfold dist2, norm2. apply inner_ext; intros i Hi; rewrite co_tab by auto; reflexivity. }
  assert (Db : forall p (y : nat -> R), dist2 n (pc (tab n (co p))) y = dist2 n (co p) y).
  { intros p y. unfold dist2, norm2. apply inner_ext; intros i Hi; rewrite pc_plain by auto; reflexivity. }
  split.
  - intros p I. unfold in_ball. cbn [center radius]. rewrite Dc. apply sqrt_le_1_alt. rewrite <- Db. apply En. auto.
  - intros b' Hb'. assert (Pos : 0 <= radius b') by (specialize (Hb' p0 Ip0); unfold in_ball in Hb'; pose proof (dist_nonneg n (co (center b')) (co p0)); lra).
    destruct (Sm (co (center b')) (radius b' * radius b')) as (S1 & S2).
    { intros q I. unfold plain in I. apply in_map_iff in I as (p & <- & I). rewrite Db. specialize (Hb' p I). unfold in_ball, dist in Hb'. rewrite dist2_sym in Hb'.
      rewrite <- (sqrt_sqrt (dist2 n (co p) (co (center b')))) by apply dist2_nonneg. apply Rmult_le_compat; auto; apply sqrt_pos. }
    split.
    + rewrite <- (sqrt_square (radius b')) by auto. apply sqrt_le_1_alt. exact S1.
    + intros L i Hi. rewrite co_tab by auto. change (get (center_of (mB st)) i) with (cn i). apply S2; auto. rewrite <- (sqrt_sqrt r) by lra. apply Rmult_le_compat; auto.
Qed.
(** It is never larger than the sphere BoundingSphereSloppy finds. *)
Theorem C43_exact_le_sloppy : forall (eps : Epsilon) n (c : list (point R)) s, dim123 n -> 0 < eps -> spread n mb_eps (plain n c) ->
  (exists p q i, In p c /\ In q c /\ (i < n)%nat /\ co p i <> co q i) -> bounding_sphere_sloppy n c = Ret s ->
  exists enough, forall fuel, (enough < fuel)%nat -> exists b, bounding_sphere n mb_eps fuel c = Some (Ret b) /\ radius b <= radius s.
Proof.
  intros eps n c s Hn He Sp Df Es. destruct (C43_points_exact eps n c He Sp Df) as (N & HN). exists N. intros fuel Hf. destruct (HN fuel Hf) as (b & E & _ & _ & _ & Mi). exists b. split; auto.
  destruct (C43_points_sloppy eps n c Hn) as (s' & Es' & _ & _ & In_); [destruct Df as (p & q & i & I & _); destruct c; [destruct I|discriminate]|].
  rewrite Es in Es'. injection Es' as <-. apply Mi. exact In_.
Qed.
Example C43_points_exact_example : exists (c : list (point R)), spread 2 mb_eps (plain 2 c) /\ exists p q i, In p c /\ In q c /\ (i < 2)%nat /\ co p i <> co q i.
Proof.
  exists [mk2 0 0; mk2 3 0; mk2 0 4]. split; [exact C54_search_example|]. exists (mk2 0 0), (mk2 3 0), 0%nat. cbn. repeat split; auto; try lra.
Qed.

(** * What fails *)
(** One point, or points that are all equal: with doubles the accuracy check divides 0 by 0, and the assertion in
    BoundingSphere fails.  An empty list: ++ on the end iterator. *)
Theorem C43_one_point_refuted : forall m : libm, let p := mkC [b64_ofZ 1; b64_ofZ 2] true in
  bounding_sphere (H := B64 m) 2 mb_eps64 10 [p] = Some AssertFail /\
  bounding_sphere (H := B64 m) 2 mb_eps64 10 [p; p; p] = Some AssertFail /\
  bounding_sphere (H := B64 m) 2 mb_eps64 10 [p; mkC [b64_ofZ 2; b64_ofZ 2] true] = Some (Ret (mkBall (mkC [SpecFloat.binary_normalize 53 1024 3 (-1) false; b64_ofZ 2] true) (SpecFloat.binary_normalize 53 1024 1 (-1) false))).
Proof. intros m. vm_compute. auto. Qed.
Theorem C54_empty_refuted : forall T (N : Num T) d (tau : T) fuel, bounding_sphere d tau fuel [] = Some Undef.
Proof. reflexivity. Qed.
(** The smallest ball need not be inside the sphere BoundingSphereSloppy finds: for (-1,0), (1,0), (0.9,1.9) the balls
    overlap only in part. *)
Theorem C43_sloppy_contains_exact_refuted : forall m : libm,
  let h k := ndiv (Num := B64 m) (b64_ofZ k) (b64_ofZ 10) in
  let l := [mkC [h (-10)%Z; h 0%Z] true; mkC [h 10%Z; h 0%Z] true; mkC [h 9%Z; h 19%Z] true] in
  exists b s, bounding_sphere (H := B64 m) 2 mb_eps64 10 l = Some (Ret b) /\ bounding_sphere_sloppy (H := B64 m) 2 l = Ret s /\
    c_ball_ball (H := B64 m) 2 s b false = false /\ nleb (Num := B64 m) (radius b) (radius s) = true.
Proof.
  intros m h l.
  exists (mkBall (mkC [S754_zero false; S754_finite false 8106479329266893 (-53)] true) (S754_finite false 6058973624518391 (-52))),
         (mkBall (mkC [S754_finite false 4539730328904218 (-54); S754_finite false 4791937569398896 (-53)] true) (S754_finite false 7369672880007094 (-52))).
  split; [vm_compute; reflexivity|]. split; [vm_compute; reflexivity|]. split; vm_compute; reflexivity.
Qed.
Lemma outside_witness a b r l c r' : c = [a; b] -> r' = r -> In [val (b64_ofZ 0); val (b64_ofZ 0)] l -> val r < val a * val a + val b * val b -> ~ encloses 2 (pc (map val c)) (val r') l.
Proof.
  intros -> -> I L E. specialize (E _ I). change (val (b64_ofZ 0)) with 0 in E. unfold dist2, norm2, inner, pc in E. cbn [Rsum nth map] in E. lra.
Qed.
Lemma val_neg e k : val (S754_finite false e (- (Z.pos k))) = IZR (Z.pos e) / IZR (2 ^ Z.pos k).
Proof. unfold val, SF2R, F2R. cbn [Fnum Fexp cond_Zopp]. rewrite bpow_opp. rewrite <- IZR_Zpower by lia. reflexivity. Qed.
Lemma outside_numbers : val (S754_finite false 5140989244054130 (-50)) < val (S754_finite false 8393072032826834 (-52)) * val (S754_finite false 8393072032826834 (-52)) + val (S754_finite false 4708308701341882 (-52)) * val (S754_finite false 4708308701341882 (-52)).
Proof.
  change (-50)%Z with (- Z.pos 50)%Z. change (-52)%Z with (- Z.pos 52)%Z. rewrite !val_neg.
  change (2 ^ 50)%Z with 1125899906842624%Z. change (2 ^ 52)%Z with 4503599627370496%Z. lra.
Qed.
(** With rounding a point can be left outside: for (0,0), (4,1), (1,3) the first is outside the ball found. *)
Theorem C54_rounding_refuted : forall m : libm, let l := [[b64_ofZ 0; b64_ofZ 0]; [b64_ofZ 4; b64_ofZ 1]; [b64_ofZ 1; b64_ofZ 3]] in
  exists st, build (H := B64 m) 2 mb_eps64 10 true (mkMB l 0 (basis_make (H := B64 m) 2)) = Some (Ret st) /\
    ~ encloses 2 (pc (map val (center_of (mB st)))) (val (bcr (mB st))) (map (map val) l).
Proof.
  intros m l. eexists. split; [vm_compute; reflexivity|].
  apply (outside_witness (S754_finite false 8393072032826834 (-52)) (S754_finite false 4708308701341882 (-52)) (S754_finite false 5140989244054130 (-50))); [reflexivity|reflexivity|left; reflexivity|exact outside_numbers].
Qed.
Print Assumptions C54_move_to_front_ends.
Print Assumptions C54_pivot_safe.
Print Assumptions C54_search_partial.
Print Assumptions C54_search_without_cutoff.
Print Assumptions C43_points_exact.
Print Assumptions C43_exact_le_sloppy.
Print Assumptions C43_one_point_refuted.
Print Assumptions C54_empty_refuted.
Print Assumptions C43_sloppy_contains_exact_refuted.
Print Assumptions C54_rounding_refuted.
