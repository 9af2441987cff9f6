(** The region of a polygon in the plane: its boundary separates it from the rest. *)
From Coq Require Import Reals List Bool Lra Lia Psatz Permutation Classical.
From Flocq Require Import Core.Raux.
From Verif Require Import Base Scalar ConstModel VecModel VecSpec RSpec RLib ConstProofs ShapeSpec ShapeModel PolyModel PolyIntersectModel EvenOddSpec EvenOddProofs RegionSpec.
Import ListNotations.
Open Scope R_scope.

Definition along (p q : pt) (t : R) : pt := fun k => (1 - t) * p k + t * q k.

(** * Equal points *)
Lemma boundary_eq l (x y : pt) : pteq 2 x y -> on_boundary l x -> on_boundary l y.
Proof. intros E (a & b & I & s & S & Q). exists a, b. split; auto. exists s. split; auto. intros i Hi. rewrite <- (E i Hi). auto. Qed.
Lemma pteq_sym (x y : pt) : pteq 2 x y -> pteq 2 y x.
Proof. intros E i Hi. now rewrite E. Qed.
Lemma pteq_refl (x : pt) : pteq 2 x x.
Proof. intros i Hi. reflexivity. Qed.
Lemma rel_eq (x y : pt) c : pteq 2 x y -> rel x c = rel y c.
Proof. intros E. unfold rel. rewrite (E 0%nat), (E 1%nat) by lia. reflexivity. Qed.
Lemma parity_eq l (x y : pt) d : pteq 2 x y -> parity x d l = parity y d l.
Proof. intros E. unfold parity. apply par_ext. intros e _. now rewrite !(rel_eq x y _ E). Qed.

Definition right : V := (1, 0).
Lemma right_ne : right <> (0, 0).
Proof. intros E. injection E. lra. Qed.
(** The parity decides. *)
Lemma even_odd_parity l (x : pt) b : ~ on_boundary l x -> (even_odd l x b <-> b = parity x right l).
Proof.
  intros N. pose proof (parity_even_odd l x right N right_ne) as E. split; [|now intros ->]. intros E'.
  destruct (clear_exists l x N) as (d & D). destruct (counts_exist (meets_ray x d) (sides l) ltac:(intros; apply classic)) as (n & C).
  rewrite (E d n D C). exact (E' d n D C).
Qed.
Lemma interior_parity l (x : pt) : interior l x <-> ~ on_boundary l x /\ parity x right l = true.
Proof. unfold interior. split; intros [N E]; split; auto; [symmetry|]; apply (even_odd_parity l x true N); auto. Qed.
Lemma interior_eq l (x y : pt) : pteq 2 x y -> interior l x -> interior l y.
Proof. rewrite !interior_parity. intros E [N P]. split; [intros B; apply N; revert B; apply boundary_eq, pteq_sym, E|]. now rewrite <- (parity_eq l x y right E). Qed.
Lemma region_eq l (x y : pt) : pteq 2 x y -> region l x -> region l y.
Proof. intros E [B|I]; [left; now apply (boundary_eq l x)|right; now apply (interior_eq l x)]. Qed.

(** * Paths *)
Lemma path_side p d a b :
  crossed d (rel p a) (rel p b) <> crossed d (rel (fun k => match k with 0%nat => p 0%nat + fst d | _ => p 1%nat + snd d end) a) (rel (fun k => match k with 0%nat => p 0%nat + fst d | _ => p 1%nat + snd d end) b) ->
  exists t, 0 <= t <= 1 /\ on_side (co a) (co b) (fun k => match k with 0%nat => p 0%nat + t * fst d | _ => p 1%nat + t * snd d end).
Proof.
  set (q := fun k : nat => match k with 0%nat => p 0%nat + fst d | _ => p 1%nat + snd d end). intros N.
  set (u := rel p a) in *. set (v := rel p b) in *.
  assert (Eu : rel q a = (fst u - fst d, snd u - snd d)) by (unfold rel, u, q; cbn; f_equal; ring).
  assert (Ev : rel q b = (fst v - fst d, snd v - snd d)) by (unfold rel, v, q; cbn; f_equal; ring).
  rewrite Eu, Ev in N. clear Eu Ev q.
  assert (Au : above d (fst u - fst d, snd u - snd d) = above d u). { unfold above. f_equal. unfold cr. cbn. ring. }
  assert (Av : above d (fst v - fst d, snd v - snd d) = above d v). { unfold above. f_equal. unfold cr. cbn. ring. }
  unfold crossed in N. rewrite Au, Av in N.
  set (w := cr d u - cr d v). 
  assert (K : forall t, t = cr v u / w -> w <> 0 -> 0 <= cr d u / w <= 1 -> 0 <= t <= 1 -> exists t, 0 <= t <= 1 /\ on_side (co a) (co b) (fun k => match k with 0%nat => p 0%nat + t * fst d | _ => p 1%nat + t * snd d end)).
  { intros t Et W S Tt. exists t. split; auto. exists (cr d u / w). split; auto.
    intros i Hi. apply Rmult_eq_reg_r with w; auto. rewrite Et. unfold w, u, v, rel, cr in *; cbn [fst snd] in *. destruct i as [|[|i]]; [field; auto|field; auto|lia]. }
  assert (Q1 : cr (fst v - fst d, snd v - snd d) (fst u - fst d, snd u - snd d) = cr v u - w) by (unfold w, cr; cbn [fst snd]; ring).
  assert (Q2 : cr (fst u - fst d, snd u - snd d) (fst v - fst d, snd v - snd d) = cr u v + w) by (unfold w, cr; cbn [fst snd]; ring).
  rewrite Q1, Q2 in N. assert (Z : cr u v = - cr v u) by (unfold cr; ring). rewrite Z in N.
  assert (D : forall y z, 0 < z -> 0 <= y <= z -> 0 <= y / z <= 1). { intros y z Hz Hy. split; [apply Rle_mult_inv_pos; lra|]. apply Rmult_le_reg_r with z; auto. unfold Rdiv. rewrite Rmult_assoc, Rinv_l by lra. lra. }
  assert (F : forall y z, z < 0 -> z <= y <= 0 -> 0 <= y / z <= 1). { intros y z Hz Hy. replace (y / z) with (- y / - z) by (field; lra). apply D; lra. }
  unfold above in N. destruct (Rlt_bool_spec 0 (cr d u)) as [P|P], (Rlt_bool_spec 0 (cr d v)) as [Q|Q]; cbn [xorb andb] in N; try congruence.
  - destruct (Rlt_bool_spec 0 (cr v u)) as [X|X], (Rlt_bool_spec 0 (cr v u - w)) as [Y|Y]; try congruence; [|unfold w in *; lra].
    apply (K (cr v u / w)); auto; [unfold w; lra|apply D; unfold w; lra|apply D; unfold w in *; lra].
  - destruct (Rlt_bool_spec 0 (- cr v u)) as [X|X], (Rlt_bool_spec 0 (- cr v u + w)) as [Y|Y]; try congruence; [|unfold w in *; lra].
    apply (K (cr v u / w)); auto; [unfold w; lra|apply F; unfold w; lra|apply F; unfold w in *; lra].
Qed.
(** The parity is the same at both ends of a path that does not meet the boundary. *)
Lemma path_parity l (p q : pt) : (forall t, 0 <= t <= 1 -> ~ on_boundary l (along p q t)) -> parity p right l = parity q right l.
Proof.
  intros N.
  assert (Np : ~ on_boundary l p). { intros B. apply (N 0 ltac:(lra)). revert B. apply boundary_eq. intros i Hi. unfold along. lra. }
  assert (Nq : ~ on_boundary l q). { intros B. apply (N 1 ltac:(lra)). revert B. apply boundary_eq. intros i Hi. unfold along. lra. }
  set (d := (q 0%nat - p 0%nat, q 1%nat - p 1%nat) : V).
  destruct (classic (d = (0, 0))) as [Z|D].
  { injection Z as Z0 Z1. apply parity_eq. intros i Hi. destruct i as [|[|i]]; [lra|lra|lia]. }
  rewrite (parity_dir p right d l Np right_ne D), (parity_dir q right d l Nq right_ne D). unfold parity. apply par_ext. intros [a b] I. cbn [fst snd].
  apply NNPP. intros X. destruct (path_side p d a b) as (t & T & S).
  - intros Y. apply X. rewrite Y. f_equal; apply rel_eq; intros i Hi; destruct i as [|[|i]]; cbn; [lra|lra|lia|lra|lra|lia].
  - apply (N t T). exists a, b. split; auto. destruct S as (s & S & E). exists s. split; auto. intros i Hi. rewrite <- (E i Hi). unfold along, d. cbn [fst snd]. destruct i as [|[|i]]; [lra|lra|lia].
Qed.
(** A path out of the region meets the boundary. *)
Lemma path_boundary l (p q : pt) : region l p -> ~ region l q -> exists t, 0 <= t <= 1 /\ on_boundary l (along p q t).
Proof.
  intros P Q. destruct P as [B|P]. { exists 0. split; [lra|]. revert B. apply boundary_eq. intros i Hi. unfold along. lra. }
  apply NNPP. intros X. apply Q. right. apply interior_parity in P. apply interior_parity. destruct P as [Np P]. split; [intros B; apply Q; now left|].
  rewrite <- (path_parity l p q); auto. intros t T B. apply X. eauto.
Qed.
Lemma path_interior l (p q : pt) : interior l p -> (forall t, 0 <= t <= 1 -> ~ on_boundary l (along p q t)) -> interior l q.
Proof.
  rewrite !interior_parity. intros [N P] X. split; [|rewrite <- (path_parity l p q); auto].
  intros B. apply (X 1 ltac:(lra)). revert B. apply boundary_eq. intros i Hi. unfold along. lra.
Qed.

(** * The region lies in the convex hull of the corners. *)
Lemma corner_region l c : In c l -> on_boundary l (co c).
Proof. intros I. destruct (side_start l c I) as (b & B). exists c, b. split; auto. exists 0. split; [lra|]. intros i Hi. ring. Qed.
Lemma par_false {A} (f : A -> bool) l : (forall x, In x l -> f x = false) -> par f l = false.
Proof. unfold par. induction l as [|x l IH]; cbn [fold_right In]; intros H; auto. rewrite H, IH by auto. reflexivity. Qed.
Definition ldot (d : V) (x : pt) : R := fst d * x 0%nat + snd d * x 1%nat.
Lemma boundary_half l d k (x : pt) : (forall c, In c l -> ldot d (co c) <= k) -> on_boundary l x -> ldot d x <= k.
Proof.
  intros C (a & b & I & s & S & E). destruct (sides_in l a b I) as [A B]. apply C in A. apply C in B. unfold ldot in *. rewrite (E 0%nat), (E 1%nat) by lia. nra.
Qed.
Lemma region_half l d k (x : pt) : (forall c, In c l -> ldot d (co c) <= k) -> region l x -> ldot d x <= k.
Proof.
  intros C [B|I]; [now apply (boundary_half l)|]. apply interior_parity in I. destruct I as [N P]. apply Rnot_lt_le. intros G.
  assert (D : d <> (0, 0)).
  { intros ->. destruct l as [|c l]; [unfold parity in P; discriminate|]. specialize (C c (or_introl eq_refl)). unfold ldot in *. cbn in *. lra. }
  rewrite (parity_dir x right d l N right_ne D) in P. unfold parity in P. rewrite (par_false _ (sides l)) in P; [discriminate|]. intros [a b] Ie. destruct (sides_in l a b Ie) as [A B].
  apply C in A. apply C in B. cbn [fst snd]. unfold crossed, above.
  assert (Pl : forall u v, fst d * fst u + snd d * snd u < 0 -> fst d * fst v + snd d * snd v < 0 -> 0 < cr d u -> cr d v <= 0 -> cr v u <= 0).
  { intros u v U V1 X Y. unfold cr in *. set (du := fst d * fst u + snd d * snd u) in *. set (dv := fst d * fst v + snd d * snd v) in *. set (cu := fst d * snd u - snd d * fst u) in *. set (cv := fst d * snd v - snd d * fst v) in *.
    assert (L : 0 < fst d * fst d + snd d * snd d). { destruct (Req_dec (fst d) 0) as [E|E]; [|nra]. destruct (Req_dec (snd d) 0) as [F|F]; [|nra]. destruct D. destruct d; cbn in *; congruence. }
    assert (Q : (fst d * fst d + snd d * snd d) * (fst v * snd u - snd v * fst u) = dv * cu - du * cv) by (unfold dv, cu, du, cv; ring).
    assert (dv * cu <= 0) by nra. assert (0 <= du * cv) by nra. nra. }
  assert (Ra : fst d * fst (rel x a) + snd d * snd (rel x a) < 0) by (unfold rel, ldot in *; cbn [fst snd]; lra).
  assert (Rb : fst d * fst (rel x b) + snd d * snd (rel x b) < 0) by (unfold rel, ldot in *; cbn [fst snd]; lra).
  destruct (Rlt_bool_spec 0 (cr d (rel x a))) as [X|X], (Rlt_bool_spec 0 (cr d (rel x b))) as [Y|Y]; cbn [xorb andb]; auto; apply Rlt_bool_false; apply Pl; auto.
Qed.
Lemma interior_half l d k (x : pt) : (forall c, In c l -> ldot d (co c) < k) -> region l x -> ldot d x < k.
Proof.
  intros C Rg. destruct l as [|c0 l0]. { destruct Rg as [(a & b & [] & _)|I]. apply interior_parity in I. destruct I as [_ I]. discriminate. }
  assert (M : exists m, m < k /\ forall c, In c (c0 :: l0) -> ldot d (co c) <= m).
  { clear Rg. revert C. generalize (c0 :: l0). clear. intros l. induction l as [|c l IH]; intros C; [exists (k - 1); split; [lra|easy]|].
    destruct IH as (m & M & B); [intros; apply C; cbn; auto|]. exists (Rmax m (ldot d (co c))). split; [apply Rmax_lub_lt; auto; apply C; cbn; auto|].
    intros x [<-|I]; [apply Rmax_r|]. eapply Rle_trans; [apply B; auto|apply Rmax_l]. }
  destruct M as (m & M & B). pose proof (region_half _ d m x B Rg). lra.
Qed.
Lemma region_nil (x : pt) : ~ region [] x.
Proof. intros [(a & b & [] & _)|I]. apply interior_parity in I. destruct I as [_ I]. discriminate. Qed.
