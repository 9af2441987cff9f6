(** Polygons in the plane against axis-aligned boxes: going round the polygon. *)
From Coq Require Import Reals List Bool Lra Lia Psatz Permutation Classical.
From Flocq Require Import Core.Raux.
From Verif Require Import Base Scalar ConstModel VecModel VecSpec RSpec RLib ConstProofs ShapeSpec ShapeModel PolyModel PolyIntersectModel EvenOddSpec EvenOddProofs RegionSpec RegionProofs PolyShapeProofs PolyBoxProofs.
Import ListNotations.
Open Scope R_scope.
#[local] Existing Instance Rnum | 0.
#[local] Existing Instance eps0.

(** What passes from every corner to the next one passes to all of them. *)
Lemma round_open {A} (P : A -> Prop) rest : forall c z, P c -> (forall a b, In (a, b) (combine (c :: rest) (rest ++ [z])) -> P a -> P b) -> forall x, In x (c :: rest) -> P x.
Proof.
  induction rest as [|d rest IH]; intros c z Pc H x I; [now destruct I as [<-|[]]|]. destruct I as [<-|I]; auto.
  apply (IH d z); auto; [apply (H c d); auto; now left|]. intros a b Iab. apply H. now right.
Qed.
Lemma round_trip {A} (P : A -> Prop) l a : In a l -> P a -> (forall x y, In (x, y) (sides l) -> P x -> P y) -> forall x, In x l -> P x.
Proof.
  intros I Pa H x Ix. apply in_split in I. destruct I as (l1 & l2 & ->).
  apply (round_open P (l2 ++ l1) a a Pa).
  - intros u v Iuv. apply H. apply (Permutation_in (u, v) (Permutation_sym (sides_rotate l1 (a :: l2)))). exact Iuv.
  - cbn. rewrite !in_app_iff in *. cbn in *. tauto.
Qed.

Definition uppers (b : axisbox R) (c : coords R) : Prop := upper (co (low b) 0) (co (low b) 1) (co (high b) 0) (co (high b) 1) (co c 0) (co c 1).
Lemma inside_uppers l b x : box_ordered 2 b -> (forall e, In e (sides l) -> ~ cuts b e) -> on_boundary l x -> in_box_open 2 b x -> forall c, In c l -> uppers b c.
Proof.
  intros O N (i & j & I & s & S & E) X. pose proof (X 0%nat ltac:(lia)) as X0. pose proof (X 1%nat ltac:(lia)) as X1. rewrite (E 0%nat) in X0 by lia. rewrite (E 1%nat) in X1 by lia.
  assert (O0 := O 0%nat ltac:(lia)). assert (O1 := O 1%nat ltac:(lia)).
  replace ((1 - s) * co i 0 + s * co j 0) with (co i 0 + s * (co j 0 - co i 0)) in X0 by ring. replace ((1 - s) * co i 1 + s * co j 1) with (co i 1 + s * (co j 1 - co i 1)) in X1 by ring.
  destruct (through_upper _ _ _ _ _ _ _ _ s S X0 X1 (N (i, j) I)) as [U _].
  apply (round_trip (uppers b) l i); auto; [now apply (sides_in l i j)|]. intros u v Iuv P. exact (upper_next _ _ _ _ _ _ _ _ P (N (u, v) Iuv)).
Qed.
Lemma uppers_par l b : (forall c, In c l -> uppers b c) -> parity (co (low b)) right l = false.
Proof.
  intros U. unfold parity. apply par_false. intros [i j] I. destruct (sides_in l i j I) as [A B]. apply U in A. apply U in B. destruct A as [A0 A1], B as [B0 B1].
  cbn [fst snd]. unfold crossed, above, right, rel, cr. cbn [fst snd]. rewrite !Rlt_bool_true by lra. reflexivity.
Qed.
(** Every cut is a common point of the boundary and the closed box. *)
Lemma on_side_at (i j : coords R) (k m : nat) v x : (k = 0 /\ m = 1 \/ k = 1 /\ m = 0)%nat -> betw (co i k) v (co j k) -> x k = v -> x m = cutv (co i m) (co i k) (co j m) (co j k) v -> on_side (co i) (co j) x.
Proof.
  intros K B Xk Xm. pose proof (betw_ne _ _ _ B) as N. exists ((v - co i k) / (co j k - co i k)). split.
  - destruct B as [B|B].
    + split; [apply Rle_mult_inv_pos; lra|]. apply Rmult_le_reg_r with (co j k - co i k); [lra|]. unfold Rdiv. rewrite Rmult_assoc, Rinv_l by lra. lra.
    + replace ((v - co i k) / (co j k - co i k)) with ((co i k - v) / (co i k - co j k)) by (field; lra). split; [apply Rle_mult_inv_pos; lra|]. apply Rmult_le_reg_r with (co i k - co j k); [lra|]. unfold Rdiv. rewrite Rmult_assoc, Rinv_l by lra. lra.
  - intros n Hn. assert (n = k \/ n = m) as [->| ->] by lia; [rewrite Xk|rewrite Xm]; unfold cutv; field; lra.
Qed.
Definition p2 (x y : R) : pt := fun k => match k with 0%nat => x | _ => y end.
Lemma cut_boundary l b e : box_ordered 2 b -> In e (sides l) -> cuts b e -> meet (on_boundary l) (in_box 2 b).
Proof.
  intros O I C. destruct e as [i j]. assert (O0 := O 0%nat ltac:(lia)). assert (O1 := O 1%nat ltac:(lia)). unfold cuts, trig in C. cbn [fst snd] in C.
  destruct C as [[B C]|[[B C]|[[B C]|[B C]]]].
  - exists (p2 (cutv (co i 0) (co i 1) (co j 0) (co j 1) (co (low b) 1)) (co (low b) 1)). split; [exists i, j; split; auto; eapply (on_side_at i j 1 0); eauto|]. intros [|[|k]] Hk; cbn; [lra|lra|lia].
  - exists (p2 (co (low b) 0) (cutv (co i 1) (co i 0) (co j 1) (co j 0) (co (low b) 0))). split; [exists i, j; split; auto; eapply (on_side_at i j 0 1); eauto|]. intros [|[|k]] Hk; cbn; [lra|lra|lia].
  - exists (p2 (cutv (co i 0) (co i 1) (co j 0) (co j 1) (co (high b) 1)) (co (high b) 1)). split; [exists i, j; split; auto; eapply (on_side_at i j 1 0); eauto|]. intros [|[|k]] Hk; cbn; [lra|lra|lia].
  - exists (p2 (co (high b) 0) (cutv (co i 1) (co i 0) (co j 1) (co j 0) (co (high b) 0))). split; [exists i, j; split; auto; eapply (on_side_at i j 0 1); eauto|]. intros [|[|k]] Hk; cbn; [lra|lra|lia].
Qed.

(** * Moving the point up and to the right a little changes nothing. *)
Lemma nudge_side a0 a1 b0 b1 x y : ~ (betw a1 y b1 /\ x = cutv a0 a1 b0 b1 y) ->
  exists e, 0 < e /\ forall t, 0 <= t < e -> between a1 (y + t) b1 && Rlt_bool (x + t) (cutv a0 a1 b0 b1 (y + t)) = between a1 y b1 && Rlt_bool x (cutv a0 a1 b0 b1 y).
Proof.
  intros N. destruct (between a1 y b1) eqn:B.
  - apply between_R in B. assert (G : cutv a0 a1 b0 b1 y - x <> 0) by (intros Z; apply N; split; auto; lra). pose proof (betw_ne _ _ _ B) as Ne.
    set (g := cutv a0 a1 b0 b1 y - x) in *. set (m := (b0 - a0) / (b1 - a1)).
    assert (Top : exists e1, 0 < e1 /\ forall t, 0 <= t < e1 -> betw a1 (y + t) b1).
    { destruct B as [B|B]; [exists (b1 - y)|exists (a1 - y)]; (split; [lra|]); intros t T; [left|right]; lra. }
    destruct Top as (e1 & E1 & Top). pose proof (Rabs_pos_lt g G) as Ga. pose proof (Rabs_pos (m - 1)) as Mp.
    set (e2 := Rabs g / (Rabs (m - 1) + 1)). assert (E2 : 0 < e2) by (apply Rdiv_lt_0_compat; lra).
    exists (Rmin e1 e2). split; [now apply Rmin_glb_lt|]. intros t T. pose proof (Rmin_l e1 e2). pose proof (Rmin_r e1 e2).
    assert (Bt : between a1 (y + t) b1 = true) by (apply between_R, Top; lra). rewrite Bt. cbn [andb].
    assert (Q : cutv a0 a1 b0 b1 (y + t) - (x + t) = g + (m - 1) * t) by (unfold g, m, cutv; field; lra).
    assert (W : Rabs ((m - 1) * t) < Rabs g).
    { rewrite Rabs_mult, (Rabs_right t) by lra. assert (t * (Rabs (m - 1) + 1) < Rabs g). { apply Rmult_lt_reg_r with (/ (Rabs (m - 1) + 1)); [apply Rinv_0_lt_compat; lra|]. rewrite Rmult_assoc, Rinv_r by lra. change (Rabs g * / (Rabs (m - 1) + 1)) with e2. lra. } nra. }
    apply Rabs_def2 in W. destruct (Rlt_bool_spec x (cutv a0 a1 b0 b1 y)) as [X|X].
    + apply Rlt_bool_true. unfold g in W. rewrite Rabs_right in W by lra. fold g in W. lra.
    + apply Rlt_bool_false. assert (g < 0) by (unfold g in *; lra). rewrite Rabs_left in W by auto. lra.
  - assert (Nb : ~ betw a1 y b1) by (intros Z; apply between_R in Z; congruence). cbn [andb].
    assert (Top : exists e1, 0 < e1 /\ forall t, 0 <= t < e1 -> ~ betw a1 (y + t) b1).
    { destruct (Rlt_dec y a1) as [A|A], (Rlt_dec y b1) as [C|C].
      - exists (Rmin (a1 - y) (b1 - y)). split; [apply Rmin_glb_lt; lra|]. intros t T. pose proof (Rmin_l (a1 - y) (b1 - y)). pose proof (Rmin_r (a1 - y) (b1 - y)). unfold betw. lra.
      - exfalso. apply Nb. right. lra.
      - exfalso. apply Nb. left. lra.
      - exists 1. split; [lra|]. intros t T. unfold betw. lra. }
    destruct Top as (e1 & E1 & Top). exists e1. split; auto. intros t T. replace (between a1 (y + t) b1) with false; auto. symmetry. apply not_true_is_false. intros Z. apply between_R in Z. exact (Top t T Z).
Qed.
Definition nudged (p : coords R) (t : R) : coords R := mkC [co p 0 + t; co p 1 + t] true.
Lemma nudge (es : list (coords R * coords R)) (p : coords R) : (forall e, In e es -> touches p e = false) -> exists e, 0 < e /\ forall t, 0 <= t < e -> par (passes (nudged p t)) es = par (passes p) es.
Proof.
  induction es as [|[i j] es IH]; intros N; [exists 1; split; [lra|reflexivity]|]. destruct IH as (e & E & H); [intros; apply N; cbn; auto|].
  destruct (nudge_side (co i 0) (co i 1) (co j 0) (co j 1) (co p 0) (co p 1)) as (e' & E' & H').
  { intros [B Z]. specialize (N (i, j) (or_introl eq_refl)). unfold touches, spans in N. cbn [fst snd] in N. change (at_ ?v ?k) with (co v k) in N. apply between_R in B. rewrite B in N. cbn [andb] in N.
    rewrite (cut_R eps0) in N. cbn [fst snd] in N. assert (Q : equal (co p 0) (co i 0 + (co j 0 - co i 0) * (co p 1 - co i 1) / (co j 1 - co i 1)) 0 = true). { apply (equal_R_exact0 eps0). rewrite Z at 1. unfold cutv, Rdiv. ring. } change (equal (co p 0) (co i 0 + (co j 0 - co i 0) * (co p 1 - co i 1) / (co j 1 - co i 1)) 0 = false) in N. rewrite Q in N. discriminate. }
  exists (Rmin e e'). split; [now apply Rmin_glb_lt|]. intros t T. pose proof (Rmin_l e e'). pose proof (Rmin_r e e'). unfold par in *. cbn [fold_right]. rewrite H by lra. f_equal.
  rewrite !passes_cut. cbn [fst snd]. apply H'. lra.
Qed.

Lemma conv_open t lo hi p q : 0 <= t <= 1 -> lo < p < hi -> lo < q < hi -> lo < (1 - t) * p + t * q < hi.
Proof.
  intros T P Q. destruct (Req_dec t 0) as [->|N]; [lra|]. assert (0 < t * (q - lo)) by (apply Rmult_lt_0_compat; lra). assert (0 < t * (hi - q)) by (apply Rmult_lt_0_compat; lra).
  assert (0 <= (1 - t) * (p - lo)) by (apply Rmult_le_pos; lra). assert (0 <= (1 - t) * (hi - p)) by (apply Rmult_le_pos; lra). lra.
Qed.
Lemma conv_half t lo hi p q : 0 <= t < 1 -> lo < p < hi -> lo <= q <= hi -> lo < (1 - t) * p + t * q < hi.
Proof.
  intros T P Q. assert (0 <= t * (q - lo)) by (apply Rmult_le_pos; lra). assert (0 <= t * (hi - q)) by (apply Rmult_le_pos; lra).
  assert (0 < (1 - t) * (p - lo)) by (apply Rmult_lt_0_compat; lra). assert (0 < (1 - t) * (hi - p)) by (apply Rmult_lt_0_compat; lra). lra.
Qed.
(** * Results *)
Lemma edges_cuts (l : list (coords R)) b : (exists e, In e (edges l) /\ cuts b e) <-> exists e, In e (sides l) /\ cuts b e.
Proof.
  split; intros (e & I & C); exists (swap e); (split; [|now apply cuts_swap]); apply (proj1 (edge_side l e)) || apply edge_side; auto. now destruct e.
Qed.
Lemma edges_par (l : list (coords R)) p : par (passes p) (edges l) = parity (co p) right l.
Proof.
  rewrite (par_perm _ _ _ (edges_sides l)), par_map, (par_ext _ (passes p)) by (intros; apply (passes_swap eps0)). apply parity_passes.
Qed.
Lemma box_result l b : l <> [] -> box_ordered 2 b -> exists r, i_pg2_box l b false = Ret r /\ (r = true <-> (exists e, In e (sides l) /\ cuts b e) \/ (~ (exists e, In e (sides l) /\ cuts b e) /\ parity (co (low b)) right l = true)).
Proof.
  intros Nn O. unfold i_pg2_box. destruct l as [|c l']; [easy|]. set (l := c :: l') in *. eexists. split; [reflexivity|]. unfold point in *.
  rewrite <- edges_cuts. destruct (classic (exists e, In e (edges l) /\ cuts b e)) as [K|K].
  - rewrite (loop_cut b (edges l) O false K). split; auto.
  - rewrite (loop_no_cut b (edges l) O false) by (intros e I C; apply K; eauto). rewrite xorb_false_l, edges_par. tauto.
Qed.
Lemma box_result_c l b : l <> [] -> box_ordered 2 b -> exists r, c_pg2_box l b true = Ret r /\ (r = true <-> ~ (exists e, In e (sides l) /\ cuts b e) /\ parity (co (low b)) right l = true).
Proof.
  intros Nn O. unfold c_pg2_box. destruct l as [|c l']; [easy|]. set (l := c :: l') in *. eexists. split; [reflexivity|]. unfold point in *.
  rewrite <- edges_cuts. destruct (classic (exists e, In e (edges l) /\ cuts b e)) as [K|K].
  - rewrite (loop_c_cut b (edges l) O false K). split; [discriminate|tauto].
  - rewrite (loop_c_no_cut b (edges l) O false) by (intros e I C; apply K; eauto). rewrite xorb_false_l, edges_par. tauto.
Qed.
Lemma touch_cuts b e : box_ordered 2 b -> touches (low b) e = true -> cuts b e.
Proof.
  intros O T. left. unfold touches in T. apply andb_true_iff in T. destruct T as [S T]. change (at_ (low b) 0) with (co (low b) 0) in T. apply equal_R_exact0 in T. rewrite cut_R in T.
  unfold spans in S. change (at_ ?v ?k) with (co v k) in S. apply between_R in S. split; auto. pose proof (O 0%nat ltac:(lia)).
  assert (cutv (co (fst e) 0) (co (fst e) 1) (co (snd e) 0) (co (snd e) 1) (co (low b) 1) = co (low b) 0). { etransitivity; [|symmetry; exact T]. unfold cutv, Rdiv. ring. } lra.
Qed.
(** When nothing is cut and the low corner counts as inside, so is the whole box. *)
Lemma low_inside l b : box_thick 2 b -> ~ (exists e, In e (sides l) /\ cuts b e) -> parity (co (low b)) right l = true ->
  forall x, in_box_open 2 b x -> interior l x.
Proof.
  intros Th K P. assert (O : box_ordered 2 b) by (intros i Hi; apply Rlt_le; auto).
  assert (Nb : forall x, in_box_open 2 b x -> ~ on_boundary l x).
  { intros x X B. rewrite (uppers_par l b) in P; [discriminate|]. apply (inside_uppers l b x O); auto. intros e I C. apply K. eauto. }
  destruct (nudge (sides l) (low b)) as (e & E & H). { intros s I. apply not_true_is_false. intros T. apply K. exists s. split; auto. now apply touch_cuts. }
  pose proof (Th 0%nat ltac:(lia)) as T0. pose proof (Th 1%nat ltac:(lia)) as T1.
  set (m := Rmin e (Rmin (co (high b) 0 - co (low b) 0) (co (high b) 1 - co (low b) 1))).
  assert (Mp : 0 < m) by (repeat apply Rmin_glb_lt; lra). assert (M1 : m <= e) by apply Rmin_l.
  assert (M2 : m <= co (high b) 0 - co (low b) 0) by (eapply Rle_trans; [apply Rmin_r|apply Rmin_l]). assert (M3 : m <= co (high b) 1 - co (low b) 1) by (eapply Rle_trans; [apply Rmin_r|apply Rmin_r]).
  specialize (H (m / 2) ltac:(lra)). rewrite !parity_passes, P in H. set (z := co (nudged (low b) (m / 2))) in *.
  assert (Z : in_box_open 2 b z). { intros [|[|i]] Hi; unfold z, nudged, co; cbn [el nth]; fold (co (low b) 0) (co (low b) 1); [|  |lia]; unfold co in *; lra. }
  intros x X. apply (path_interior l z x).
  - apply interior_parity. auto.
  - intros t T. apply Nb. intros i Hi. specialize (X i Hi). specialize (Z i Hi). unfold along.
    now apply conv_open.
Qed.
Lemma low_inside_closed l b : box_thick 2 b -> ~ (exists e, In e (sides l) /\ cuts b e) -> parity (co (low b)) right l = true -> incl (in_box 2 b) (region l).
Proof.
  intros Th K P x X. pose proof (low_inside l b Th K P) as I. set (m := fun i => (co (low b) i + co (high b) i) / 2).
  assert (M : in_box_open 2 b m) by (intros i Hi; specialize (Th i Hi); unfold m; lra). apply NNPP. intros N.
  destruct (path_boundary l m x) as (t & T & B); auto; [right; auto|]. destruct (Req_dec t 1) as [->|T1].
  - apply N. left. revert B. apply boundary_eq. intros i Hi. unfold along. ring.
  - assert (Z : in_box_open 2 b (along m x t)).
    { intros i Hi. specialize (X i Hi). specialize (M i Hi). unfold along. apply conv_half; auto. lra. }
    now destruct (I _ Z).
Qed.
Lemma pg2_box_sound l b : l <> [] -> box_ordered 2 b -> i_pg2_box l b false = Ret true -> meet (region l) (in_box 2 b).
Proof.
  intros Nn O E. destruct (box_result l b Nn O) as (r & Er & H). rewrite Er in E. injection E as ->. destruct (proj1 H eq_refl) as [(e & I & C)|[K P]].
  - destruct (cut_boundary l b e O I C) as (x & B & X). exists x. split; auto. now left.
  - exists (co (low b)). split; [|intros i Hi; specialize (O i Hi); lra]. destruct (classic (on_boundary l (co (low b)))); [now left|]. right. now apply interior_parity.
Qed.
Lemma pg2_box_complete l b : l <> [] -> box_thick 2 b -> meet (region l) (in_box_open 2 b) -> (exists c, In c l /\ ~ in_box 2 b (co c)) -> i_pg2_box l b false = Ret true.
Proof.
  intros Nn Th (x & X & Bx) (c & Ic & Out). assert (O : box_ordered 2 b) by (intros i Hi; apply Rlt_le; auto). destruct (box_result l b Nn O) as (r & Er & H). rewrite Er. f_equal. apply H.
  destruct (classic (exists e, In e (sides l) /\ cuts b e)) as [K|K]; auto. right. split; auto.
  assert (Nb : forall y, in_box_open 2 b y -> ~ on_boundary l y).
  { intros y Y B. apply Out. assert (U : uppers b c) by (apply (inside_uppers l b y O); auto; intros e I C; apply K; eauto). destruct U as [U0 U1]. intros [|[|i]] Hi; [lra|lra|lia]. }
  destruct X as [X|X]; [now destruct (Nb x Bx)|]. apply interior_parity in X. destruct X as [_ X].
  destruct (nudge (sides l) (low b)) as (e & E & G). { intros s I. apply not_true_is_false. intros T. apply K. exists s. split; auto. now apply touch_cuts. }
  pose proof (Th 0%nat ltac:(lia)) as T0. pose proof (Th 1%nat ltac:(lia)) as T1.
  set (m := Rmin e (Rmin (co (high b) 0 - co (low b) 0) (co (high b) 1 - co (low b) 1))).
  assert (Mp : 0 < m) by (repeat apply Rmin_glb_lt; lra). assert (M1 : m <= e) by apply Rmin_l.
  assert (M2 : m <= co (high b) 0 - co (low b) 0) by (eapply Rle_trans; [apply Rmin_r|apply Rmin_l]). assert (M3 : m <= co (high b) 1 - co (low b) 1) by (eapply Rle_trans; [apply Rmin_r|apply Rmin_r]).
  specialize (G (m / 2) ltac:(lra)). rewrite !parity_passes in G. rewrite <- G. set (z := co (nudged (low b) (m / 2))) in *.
  assert (Z : in_box_open 2 b z). { intros [|[|i]] Hi; unfold z, nudged, co; cbn [el nth]; fold (co (low b) 0) (co (low b) 1); [|  |lia]; unfold co in *; lra. }
  rewrite <- X. apply path_parity. intros t T. apply Nb. intros i Hi. specialize (Bx i Hi). specialize (Z i Hi). unfold along.
  now apply conv_open.
Qed.
(** A polygon inside the box is not found. *)
Lemma upper_no_cut lx ly hx hy ix iy jx jy : upper lx ly hx hy ix iy -> upper lx ly hx hy jx jy -> ~ trig lx ly hx hy ix iy jx jy.
Proof. intros [A B] [C D] [[T _]|[[T _]|[[T _]|[T _]]]]; unfold betw in T; lra. Qed.
Lemma pg2_box_inside l b : l <> [] -> box_ordered 2 b -> (forall c, In c l -> uppers b c) -> i_pg2_box l b false = Ret false.
Proof.
  intros Nn O U. destruct (box_result l b Nn O) as (r & Er & H). rewrite Er. f_equal. apply not_true_is_false. intros ->. destruct (proj1 H eq_refl) as [((i & j) & I & C)|[_ P]].
  - destruct (sides_in l i j I) as [A B]. exact (upper_no_cut _ _ _ _ _ _ _ _ (U i A) (U j B) C).
  - rewrite (uppers_par l b U) in P. discriminate.
Qed.
Lemma pg2_has_box_sound l b : l <> [] -> box_thick 2 b -> c_pg2_box l b true = Ret true -> incl (in_box 2 b) (region l) /\ incl (in_box_open 2 b) (interior l).
Proof.
  intros Nn Th E. assert (O : box_ordered 2 b) by (intros i Hi; apply Rlt_le; auto). destruct (box_result_c l b Nn O) as (r & Er & H). rewrite Er in E. injection E as ->. destruct (proj1 H eq_refl) as [K P].
  split; [now apply low_inside_closed|]. exact (low_inside l b Th K P).
Qed.
Lemma pg2_has_box_complete l b : l <> [] -> box_ordered 2 b -> incl (in_box 2 b) (interior l) -> c_pg2_box l b true = Ret true.
Proof.
  intros Nn O I. destruct (box_result_c l b Nn O) as (r & Er & H). rewrite Er. f_equal. apply H. split.
  - intros (e & Ie & C). destruct (cut_boundary l b e O Ie C) as (x & B & X). now destruct (I x X).
  - assert (L : in_box 2 b (co (low b))) by (intros i Hi; specialize (O i Hi); lra). apply I in L. apply interior_parity in L. tauto.
Qed.
(** Off the corners of the box the two forms of the test agree. *)
Definition box_corner (b : axisbox R) (x : pt) : Prop := forall i, (i < 2)%nat -> x i = co (low b) i \/ x i = co (high b) i.
Lemma cut_c_off lo hi cut : lo <> cut -> hi <> cut -> box_cut_c lo hi cut false = box_cut_c lo hi cut true.
Proof.
  intros A B. unfold box_cut_c. cbv zeta. replace (equal lo cut neps || equal hi cut neps) with false; auto. symmetry. apply not_true_is_false. intros E. apply orb_true_iff in E. destruct E as [E|E]; apply equal_R_exact0 in E; lra.
Qed.
Lemma loop_c_corners l b : (forall x, box_corner b x -> ~ on_boundary l x) -> forall es hit, (forall e, In e es -> In e (sides l) \/ In (swap e) (sides l)) ->
  pg2_box_loop_c (low b) (high b) false es hit = pg2_box_loop_c (low b) (high b) true es hit.
Proof.
  intros N. assert (N' : forall i j x, In (i, j) (sides l) \/ In (j, i) (sides l) -> box_corner b x -> ~ on_side (co i) (co j) x).
  { intros i j x [I|I] C S; apply (N x C); [exists i, j|exists j, i]; split; auto. destruct S as (s & S & E). exists (1 - s). split; [lra|]. intros k Hk. rewrite (E k Hk). ring. }
  intros es. induction es as [|[i j] es IH]; intros hit K; [reflexivity|]. cbn [pg2_box_loop_c]. cbv zeta.
  assert (Ie : In (i, j) (sides l) \/ In (j, i) (sides l)) by (apply (K (i, j)); now left). change (at_ ?v ?k) with (co v k). cbn [nadd nsub nmul ndiv Rnum].
  fold (cutv (co i 0) (co i 1) (co j 0) (co j 1) (co (low b) 1)). fold (cutv (co i 1) (co i 0) (co j 1) (co j 0) (co (low b) 0)). fold (cutv (co i 0) (co i 1) (co j 0) (co j 1) (co (high b) 1)). fold (cutv (co i 1) (co i 0) (co j 1) (co j 0) (co (high b) 0)).
  assert (Q : forall k m v lo hi, (k = 0 /\ m = 1 \/ k = 1 /\ m = 0)%nat -> lo = co (low b) m -> hi = co (high b) m -> v = co (low b) k \/ v = co (high b) k ->
    (if between (co i k) v (co j k) then box_cut_c lo hi (cutv (co i m) (co i k) (co j m) (co j k) v) false else None) = (if between (co i k) v (co j k) then box_cut_c lo hi (cutv (co i m) (co i k) (co j m) (co j k) v) true else None)).
  { intros k m v lo hi Km Elo Ehi Ev. destruct (between (co i k) v (co j k)) eqn:B; auto. apply between_R in B.
    assert (Z : forall w, w = lo \/ w = hi -> w <> cutv (co i m) (co i k) (co j m) (co j k) v).
    { intros w Ew X. pose (x := fun n : nat => if Nat.eqb n k then v else w). assert (Xk : x k = v) by (unfold x; now rewrite PeanoNat.Nat.eqb_refl). assert (Xm : x m = w) by (unfold x; destruct Km as [[-> ->]|[-> ->]]; reflexivity).
      apply (N' i j x Ie).
      - intros n Hn. assert (n = k \/ n = m) as [->| ->] by lia; [rewrite Xk; auto|rewrite Xm]. rewrite <- Elo, <- Ehi. auto.
      - apply (on_side_at i j k m v); auto. rewrite Xm, X. reflexivity. }
    apply cut_c_off; apply Z; auto. }
  rewrite (Q 1%nat 0%nat (co (low b) 1)), (Q 0%nat 1%nat (co (low b) 0)), (Q 1%nat 0%nat (co (high b) 1)), (Q 0%nat 1%nat (co (high b) 0)) by auto.
  destruct (orb_ _ _); auto. apply IH. intros e I. apply K. now right.
Qed.
Lemma has_box_corners l b : (forall x, box_corner b x -> ~ on_boundary l x) -> c_pg2_box l b false = c_pg2_box l b true.
Proof.
  intros N. unfold c_pg2_box. destruct l as [|c l']; [reflexivity|]. f_equal. apply (loop_c_corners (c :: l') b N). intros e I. right. now apply edge_side.
Qed.
