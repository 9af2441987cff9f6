(** Crossing parities: rays in two directions cross the sides of a closed polygon equally often, modulo 2. *)
From Coq Require Import Reals List Bool Lra Lia Psatz Permutation ZArith.
From Flocq Require Import Core.Raux Core.Zaux.
From Verif Require Import Base Scalar ConstModel VecModel VecSpec RSpec RLib ConstProofs ShapeSpec ShapeModel PolyModel PolyIntersectModel EvenOddSpec.
Import ListNotations.
Open Scope R_scope.

(** * Vectors of the plane *)
Definition V : Type := (R * R)%type.
Definition cr (u v : V) : R := fst u * snd v - snd u * fst v.
Definition above (d v : V) : bool := Rlt_bool 0 (cr d v).
Definition crossed (d a b : V) : bool := xorb (above d a) (above d b) && Rlt_bool 0 (if above d a then cr b a else cr a b).
Definition through0 (a b : V) : Prop := exists s, 0 <= s <= 1 /\ (1 - s) * fst a + s * fst b = 0 /\ (1 - s) * snd a + s * snd b = 0.

Lemma crossed_sym d a b : crossed d a b = crossed d b a.
Proof. unfold crossed. rewrite (xorb_comm (above d b)). destruct (above d a), (above d b); reflexivity. Qed.

Lemma plucker d1 d2 a b : cr d1 d2 * cr b a = cr d1 b * cr d2 a - cr d1 a * cr d2 b.
Proof. unfold cr. ring. Qed.

(** If the cross product vanishes between two points on opposite sides, the segment goes through 0. *)
Lemma opposite_through0 d a b : cr d a > 0 -> cr d b <= 0 -> cr b a = 0 -> fst d * fst d + snd d * snd d > 0 -> through0 a b.
Proof.
  intros A B C D. exists (cr d a / (cr d a - cr d b)).
  assert (P : cr d a - cr d b > 0) by lra.
  assert (E0 : cr d a * fst b - cr d b * fst a = 0) by (replace (cr d a * fst b - cr d b * fst a) with (fst d * cr b a) by (unfold cr; ring); rewrite C; ring).
  assert (E1 : cr d a * snd b - cr d b * snd a = 0) by (replace (cr d a * snd b - cr d b * snd a) with (snd d * cr b a) by (unfold cr; ring); rewrite C; ring).
  split; [|split].
  - split; [apply Rmult_le_reg_r with (cr d a - cr d b); auto|apply Rmult_le_reg_r with (cr d a - cr d b); auto]; unfold Rdiv; rewrite ?Rmult_assoc, ?Rinv_l, ?Rmult_1_r, ?Rmult_0_l, ?Rmult_1_l by lra; lra.
  - apply Rmult_eq_reg_r with (cr d a - cr d b); [|lra]. transitivity (cr d a * fst b - cr d b * fst a); [field; lra|lra].
  - apply Rmult_eq_reg_r with (cr d a - cr d b); [|lra]. transitivity (cr d a * snd b - cr d b * snd a); [field; lra|lra].
Qed.
Lemma through0_sym a b : through0 a b -> through0 b a.
Proof. intros (s & H & A & B). exists (1 - s). split; [lra|]. split; [rewrite <- A; ring|rewrite <- B; ring]. Qed.

Lemma len_pos (d v : V) : cr d v <> 0 -> fst d * fst d + snd d * snd d > 0.
Proof. unfold cr. intros H. destruct (Req_dec (fst d) 0) as [E|E]; [destruct (Req_dec (snd d) 0) as [F|F]; [rewrite E, F in H; lra|nra]|nra]. Qed.

(** One side: whether it is crossed by the two rays depends on whether it enters the cone between them. *)
Lemma two_rays d1 d2 a b : 0 < cr d1 d2 -> ~ through0 a b ->
  let s v := above d1 v && negb (above d2 v) in
  xorb (crossed d1 a b) (crossed d2 a b) = xorb (s a) (s b).
Proof.
  intros K N s. unfold s, crossed. pose proof (plucker d1 d2 a b) as P. pose proof (plucker d1 d2 b a) as P'.
  pose proof (len_pos d1 d2 ltac:(lra)) as L1. pose proof (len_pos d2 d1 ltac:(unfold cr in *; lra)) as L2.
  assert (S : cr a b = - cr b a) by (unfold cr; ring).
  unfold above. 
  destruct (Rlt_bool_spec 0 (cr d1 a)) as [A1|A1], (Rlt_bool_spec 0 (cr d1 b)) as [B1|B1], (Rlt_bool_spec 0 (cr d2 a)) as [A2|A2], (Rlt_bool_spec 0 (cr d2 b)) as [B2|B2]; cbn [xorb andb negb]; auto;
  destruct (Rlt_bool_spec 0 (cr b a)) as [D|D]; try (destruct (Rlt_bool_spec 0 (cr a b)) as [D'|D']); try lra; cbn [xorb andb negb]; auto; exfalso;
  try (assert (Z : cr b a = 0) by lra);
  first [ apply N; apply (opposite_through0 d1); auto; fail
        | apply N; apply (opposite_through0 d2); auto; fail
        | apply N; apply through0_sym; apply (opposite_through0 d1); auto; lra
        | apply N; apply through0_sym; apply (opposite_through0 d2); auto; lra
        | idtac ].
  all: try nra.
Qed.

(** * Parities *)
Definition par {A} (f : A -> bool) (l : list A) : bool := fold_right (fun x acc => xorb (f x) acc) false l.
Lemma par_perm {A} (f : A -> bool) l l' : Permutation l l' -> par f l = par f l'.
Proof.
  unfold par. induction 1 as [|x l l' _ IH|x y l|l1 l2 l3 _ IH1 _ IH2]; cbn [fold_right]; auto; [now rewrite IH| |congruence].
  now rewrite <- !xorb_assoc, (xorb_comm (f y)).
Qed.
Lemma par_ext {A} (f g : A -> bool) l : (forall x, In x l -> f x = g x) -> par f l = par g l.
Proof. unfold par. induction l as [|x l IH]; cbn [fold_right In]; intros H; auto. rewrite H by auto. rewrite IH by auto. reflexivity. Qed.
Lemma par_xor {A} (f g : A -> bool) l : par (fun x => xorb (f x) (g x)) l = xorb (par f l) (par g l).
Proof. unfold par. induction l as [|x l IH]; cbn [fold_right]; auto. rewrite IH. destruct (f x), (g x), (fold_right (fun x acc => xorb (f x) acc) false l), (fold_right (fun x acc => xorb (g x) acc) false l); reflexivity. Qed.
Lemma par_map {A B} (f : B -> bool) (g : A -> B) l : par f (map g l) = par (fun x => f (g x)) l.
Proof. unfold par. induction l as [|x l IH]; cbn [fold_right map]; auto. now rewrite IH. Qed.
Lemma par_counts {A} (P : A -> Prop) f l n : (forall x, In x l -> (f x = true <-> P x)) -> counts P l n -> par f l = Nat.odd n.
Proof.
  intros H C. revert H. induction C as [|x l n Px _ IH|x l n Px _ IH]; intros H; cbn [par fold_right]; auto.
  - assert (f x = true) as -> by (apply H; cbn; auto). fold (par f l). rewrite IH by (intros; apply H; cbn; auto). rewrite xorb_true_l, Nat.odd_succ, <- Nat.negb_odd. reflexivity.
  - assert (f x = false) as ->. { destruct (f x) eqn:E; auto. destruct Px. apply H; cbn; auto. } fold (par f l). rewrite IH by (intros; apply H; cbn; auto). apply xorb_false_l.
Qed.
Lemma par_open {A} (s : A -> bool) l : forall x z, par (fun e => xorb (s (fst e)) (s (snd e))) (combine (x :: l) (l ++ [z])) = xorb (s x) (s z).
Proof.
  induction l as [|y l IH]; intros x z.
  - cbn. now rewrite xorb_false_r.
  - change (xorb (xorb (s x) (s y)) (par (fun e : A * A => xorb (s (fst e)) (s (snd e))) (combine (y :: l) (l ++ [z]))) = xorb (s x) (s z)). rewrite IH. destruct (s x), (s y), (s z); reflexivity.
Qed.
Lemma par_sides {A} (s : A -> bool) l : par (fun e => xorb (s (fst e)) (s (snd e))) (sides l) = false.
Proof. destruct l as [|c rest]; auto. unfold sides. rewrite par_open. apply xorb_nilpotent. Qed.

(** * Closed polygons *)
Definition rel (p : pt) (c : coords R) : V := (co c 0 - p 0%nat, co c 1 - p 1%nat).
Definition parity (p : pt) (d : V) (l : list (coords R)) : bool := par (fun e => crossed d (rel p (fst e)) (rel p (snd e))) (sides l).
Lemma side_through p a b : through0 (rel p a) (rel p b) <-> on_side (co a) (co b) p.
Proof.
  unfold through0, on_side, pteq, rel. cbn [fst snd]. split; intros (s & S & E).
  - exists s. split; auto. destruct E as [E0 E1]. intros i Hi. destruct i as [|[|i]]; [lra|lra|lia].
  - exists s. split; auto. pose proof (E 0%nat ltac:(lia)). pose proof (E 1%nat ltac:(lia)). lra.
Qed.
Lemma off_sides l p a b : ~ on_boundary l p -> In (a, b) (sides l) -> ~ through0 (rel p a) (rel p b).
Proof. intros N I T. apply N. exists a, b. split; auto. now apply side_through. Qed.

Lemma parity_pos p d1 d2 l : ~ on_boundary l p -> 0 < cr d1 d2 -> parity p d1 l = parity p d2 l.
Proof.
  intros N K. apply xorb_eq. unfold parity. rewrite <- par_xor.
  rewrite <- (par_sides (fun c => above d1 (rel p c) && negb (above d2 (rel p c))) l). apply par_ext. intros [a b] I. cbn [fst snd].
  apply two_rays; auto. now apply (off_sides l).
Qed.
Lemma parity_dir p d1 d2 l : ~ on_boundary l p -> d1 <> (0, 0) -> d2 <> (0, 0) -> parity p d1 l = parity p d2 l.
Proof.
  intros N D1 D2. assert (G : forall d1 d2, cr d1 d2 <> 0 -> parity p d1 l = parity p d2 l).
  { intros e1 e2 K. destruct (Rlt_dec 0 (cr e1 e2)); [now apply parity_pos|]. symmetry. apply parity_pos; auto. unfold cr in *. lra. }
  destruct (Req_dec (cr d1 d2) 0) as [E|E]; [|now apply G].
  assert (S1 : fst d1 * fst d1 + snd d1 * snd d1 > 0). { destruct d1 as [x y]. cbn. destruct (Req_dec x 0) as [->|]; [|nra]. destruct (Req_dec y 0) as [->|]; [now destruct D1|nra]. }
  assert (S2 : fst d2 * fst d2 + snd d2 * snd d2 > 0). { destruct d2 as [x y]. cbn. destruct (Req_dec x 0) as [->|]; [|nra]. destruct (Req_dec y 0) as [->|]; [now destruct D2|nra]. }
  transitivity (parity p (- snd d1, fst d1) l); apply G; unfold cr in *; cbn [fst snd]; [lra|].
  intros Z. assert (Q : (fst d1 * snd d2 - snd d1 * fst d2) * (fst d1 * snd d2 - snd d1 * fst d2) + (fst d1 * fst d2 + snd d1 * snd d2) * (fst d1 * fst d2 + snd d1 * snd d2) = (fst d1 * fst d1 + snd d1 * snd d1) * (fst d2 * fst d2 + snd d2 * snd d2)) by ring.
  rewrite E in Q. replace (fst d1 * fst d2 + snd d1 * snd d2) with 0 in Q by lra. nra.
Qed.

(** A clear ray crosses exactly the sides it meets. *)
Definition dv (d : pt) : V := (d 0%nat, d 1%nat).
Lemma ray_side p d a b : ~ pteq 2 d (fun _ => 0) -> ~ on_ray p d (co a) -> ~ on_ray p d (co b) -> ~ on_side (co a) (co b) p ->
  (crossed (dv d) (rel p a) (rel p b) = true <-> meets_ray p d (a, b)).
Proof.
  intros D A B N. assert (L : 0 < d 0%nat * d 0%nat + d 1%nat * d 1%nat).
  { destruct (Req_dec (d 0%nat) 0) as [E|E]; [|nra]. destruct (Req_dec (d 1%nat) 0) as [F|F]; [|nra]. destruct D. intros i Hi. destruct i as [|[|i]]; auto; lia. }
  set (x := dv d) in *. set (u := rel p a) in *. set (v := rel p b) in *. split.
  - intros C. unfold crossed in C. apply andb_true_iff in C. destruct C as [C E]. apply Rltb_iff in E. unfold above in C, E.
    assert (Q : exists w, cr x u - cr x v = w /\ w <> 0 /\ 0 <= cr x u / w <= 1 /\ 0 <= cr v u / w).
    { exists (cr x u - cr x v). split; auto.
      assert (W : forall y w, w <> 0 -> (w > 0 -> 0 <= y <= w) -> (w < 0 -> w <= y <= 0) -> 0 <= y / w <= 1).
      { intros y w W0 Wp Wn. destruct (Rtotal_order w 0) as [Hw|[Hw|Hw]]; [|lra|].
        - specialize (Wn Hw). replace (y / w) with (- y / - w) by (field; lra). split; [apply Rmult_le_reg_r with (- w); [lra|]; unfold Rdiv; rewrite Rmult_assoc, Rinv_l by lra; lra|]. apply Rmult_le_reg_r with (- w); [lra|]; unfold Rdiv; rewrite Rmult_assoc, Rinv_l by lra; lra.
        - specialize (Wp Hw). split; [apply Rmult_le_reg_r with w; [lra|]; unfold Rdiv; rewrite Rmult_assoc, Rinv_l by lra; lra|]. apply Rmult_le_reg_r with w; [lra|]; unfold Rdiv; rewrite Rmult_assoc, Rinv_l by lra; lra. }
      assert (Z : cr u v = - cr v u) by (unfold cr; ring).
      destruct (Rlt_bool_spec 0 (cr x u)) as [P|P], (Rlt_bool_spec 0 (cr x v)) as [Q|Q]; try discriminate.
      - split; [lra|]. split; [apply W; lra|]. apply Rle_mult_inv_pos; lra.
      - split; [lra|]. split; [apply W; lra|]. replace (cr v u / (cr x u - cr x v)) with (cr u v / (cr x v - cr x u)) by (rewrite Z; field; lra). apply Rle_mult_inv_pos; lra. }
    destruct Q as (w & W & W0 & S & T).
    exists (fun k => p k + cr v u / w * d k). split; [exists (cr v u / w); split; auto; intros i Hi; reflexivity|].
    exists (cr x u / w). split; auto. cbn [fst snd].
    intros i Hi. apply Rmult_eq_reg_r with w; auto. rewrite <- W in *. unfold x, u, v, dv, rel, cr in *; cbn [fst snd] in *. destruct i as [|[|i]]; [field; auto|field; auto|lia].
  - intros (y & (t & T & Y) & s & S & Z). cbn [fst snd] in Z.
    assert (E : forall i, (i < 2)%nat -> t * d i = (1 - s) * (co a i - p i) + s * (co b i - p i)) by (intros i Hi; specialize (Y i Hi); specialize (Z i Hi); lra).
    assert (E0 : t * fst x = (1 - s) * fst u + s * fst v) by (apply (E 0%nat); lia). assert (E1 : t * snd x = (1 - s) * snd u + s * snd v) by (apply (E 1%nat); lia).
    assert (Tp : 0 < t). { destruct (Req_dec t 0) as [->|]; [|lra]. destruct N. apply side_through. exists s. fold u v. split; auto. lra. }
    assert (C0 : (1 - s) * cr x u + s * cr x v = 0). { replace ((1 - s) * cr x u + s * cr x v) with (fst x * ((1 - s) * snd u + s * snd v) - snd x * ((1 - s) * fst u + s * fst v)) by (unfold cr; ring). rewrite <- E0, <- E1. ring. }
    assert (C1 : t * cr x u = s * cr v u). { replace (t * cr x u) with ((t * fst x) * snd u - (t * snd x) * fst u) by (unfold cr; ring). rewrite E0, E1. unfold cr. ring. }
    assert (C2 : t * cr x v = (1 - s) * cr u v). { replace (t * cr x v) with ((t * fst x) * snd v - (t * snd x) * fst v) by (unfold cr; ring). rewrite E0, E1. unfold cr. ring. }
    assert (Lx : 0 < fst x * fst x + snd x * snd x) by exact L.
    (* a point in line with d is not on the ray: it is behind p *)
    assert (Bk : forall c, ~ on_ray p d (co c) -> cr x (rel p c) = 0 -> fst x * fst (rel p c) + snd x * snd (rel p c) < 0).
    { intros c Nc Zc. apply Rnot_le_lt. intros G. apply Nc. set (g := (fst x * fst (rel p c) + snd x * snd (rel p c)) / (fst x * fst x + snd x * snd x)). exists g. split; [apply Rle_mult_inv_pos; auto|].
      unfold cr in Zc. unfold g. intros i Hi. apply Rmult_eq_reg_r with (fst x * fst x + snd x * snd x); [|lra].
      unfold x, dv, rel in *. cbn [fst snd] in *. destruct i as [|[|i]]; [| |lia].
      - transitivity (p 0%nat * (d 0%nat * d 0%nat + d 1%nat * d 1%nat) + (d 0%nat * (co c 0 - p 0%nat) + d 1%nat * (co c 1 - p 1%nat)) * d 0%nat); [|field; lra]. apply Rminus_diag_uniq. transitivity (- d 1%nat * (d 0%nat * (co c 1 - p 1%nat) - d 1%nat * (co c 0 - p 0%nat))); [ring|rewrite Zc; ring].
      - transitivity (p 1%nat * (d 0%nat * d 0%nat + d 1%nat * d 1%nat) + (d 0%nat * (co c 0 - p 0%nat) + d 1%nat * (co c 1 - p 1%nat)) * d 1%nat); [|field; lra]. apply Rminus_diag_uniq. transitivity (d 0%nat * (d 0%nat * (co c 1 - p 1%nat) - d 1%nat * (co c 0 - p 0%nat))); [ring|rewrite Zc; ring]. }
    assert (Dt : (1 - s) * (fst x * fst u + snd x * snd u) + s * (fst x * fst v + snd x * snd v) = t * (fst x * fst x + snd x * snd x)).
    { transitivity (fst x * ((1 - s) * fst u + s * fst v) + snd x * ((1 - s) * snd u + s * snd v)); [ring|]. rewrite <- E0, <- E1. ring. }
    assert (Tl : 0 < t * (fst x * fst x + snd x * snd x)) by (apply Rmult_lt_0_compat; auto).
    assert (Au : cr x u <> 0).
    { intros Zu. pose proof (Bk a A Zu) as Bu. fold u in Bu. rewrite Zu in C0. destruct (Req_dec s 0) as [->|Sn]; [nra|].
      assert (Zv : cr x v = 0) by (apply Rmult_eq_reg_l with s; auto; lra). pose proof (Bk b B Zv) as Bv. fold v in Bv.
      nra. }
    assert (Av : cr x v <> 0).
    { intros Zv. rewrite Zv in C0. assert (s = 1) as ->. { assert (Q : (1 - s) * cr x u = 0) by lra. apply Rmult_integral in Q. destruct Q; [lra|contradiction]. }
      specialize (Bk b B Zv). fold v in Bk. nra. }
    assert (Z' : cr u v = - cr v u) by (unfold cr; ring).
    unfold crossed, above. destruct (Rlt_bool_spec 0 (cr x u)) as [P|P], (Rlt_bool_spec 0 (cr x v)) as [Q|Q]; cbn [xorb andb].
    + nra.
    + apply Rltb_iff. destruct (Rlt_dec 0 (cr v u)); auto. nra.
    + apply Rltb_iff. destruct (Rlt_dec 0 (cr u v)); auto. nra.
    + nra.
Qed.

(** * Lists of sides *)
Definition swap {A} (e : A * A) : A * A := (snd e, fst e).
Lemma edges_from_combine {T} (l : list (coords T)) : forall prev, edges_from prev l = combine l (prev :: l).
Proof. induction l as [|i l IH]; intros prev; cbn [edges_from combine]; auto. now rewrite IH. Qed.
Lemma map_swap_combine {A} (l : list A) : forall m, map swap (combine l m) = combine m l.
Proof. induction l as [|x l IH]; intros [|y m]; cbn; auto. now rewrite IH. Qed.
Lemma combine_snoc {A} (l : list A) : forall z c d, combine (l ++ [z]) (c :: l) = combine l (c :: l) ++ [(z, last (c :: l) d)].
Proof.
  induction l as [|y l IH]; intros z c d; [reflexivity|].
  change (combine ((y :: l) ++ [z]) (c :: y :: l)) with ((y, c) :: combine (l ++ [z]) (y :: l)). rewrite (IH z y d).
  change (combine (y :: l) (c :: y :: l)) with ((y, c) :: combine l (y :: l)). reflexivity.
Qed.
Lemma edges_sides {T} `{Num T} (l : list (coords T)) : Permutation (edges l) (map swap (sides l)).
Proof.
  destruct l as [|c rest]; [constructor|]. unfold edges, sides. rewrite edges_from_combine, map_swap_combine, (combine_snoc rest c c (coords_default 2)).
  cbn [combine]. apply Permutation_cons_append.
Qed.
Lemma combine_app {A B} (l1 : list A) : forall (m1 : list B) l2 m2, length l1 = length m1 -> combine (l1 ++ l2) (m1 ++ m2) = combine l1 m1 ++ combine l2 m2.
Proof. induction l1 as [|x l1 IH]; intros [|y m1] l2 m2 E; try discriminate; auto. cbn. f_equal. apply IH. cbn in E. congruence. Qed.
Lemma combine_rev {A B} (l : list A) : forall (m : list B), length l = length m -> combine (rev l) (rev m) = rev (combine l m).
Proof.
  induction l as [|x l IH]; intros [|y m] E; try discriminate; auto. cbn [rev combine]. rewrite combine_app by (rewrite !rev_length; cbn in E; congruence).
  rewrite IH by (cbn in E; congruence). reflexivity.
Qed.
Lemma sides_turn {A} (c : A) rest : Permutation (sides (c :: rest)) (sides (rest ++ [c])).
Proof.
  destruct rest as [|d r]; [reflexivity|]. unfold sides. cbn [app].
  change (combine (c :: d :: r) (d :: r ++ [c])) with ((c, d) :: combine (d :: r) (r ++ [c])).
  change (d :: r ++ [c]) with ((d :: r) ++ [c]). rewrite (combine_app (d :: r) (r ++ [c]) [c] [d]) by (rewrite app_length; cbn; lia). apply Permutation_cons_append.
Qed.
Lemma sides_rotate {A} (l1 : list A) : forall l2, Permutation (sides (l1 ++ l2)) (sides (l2 ++ l1)).
Proof.
  induction l1 as [|c l1 IH]; intros l2; [now rewrite app_nil_r|]. cbn [app]. rewrite sides_turn, <- app_assoc, IH, <- app_assoc. reflexivity.
Qed.
Lemma sides_rev {A} (l : list A) : Permutation (sides (rev l)) (map swap (sides l)).
Proof.
  destruct l as [|c rest]; [constructor|]. cbn [rev]. rewrite (sides_rotate (rev rest) [c]). cbn [app]. unfold sides at 2. rewrite map_swap_combine. unfold sides.
  change (combine (c :: rev rest) (rev rest ++ [c])) with (combine ([c] ++ rev rest) (rev (c :: rest))). change ([c] ++ rev rest) with (rev [c] ++ rev rest). rewrite <- rev_app_distr.
  rewrite combine_rev by (rewrite app_length; cbn; lia). apply Permutation_sym, Permutation_rev.
Qed.

(** * The loop *)
Section Loop.
Context {T} `{Num T}.
Open Scope num_scope.
Definition cut_at (p : coords T) (e : coords T * coords T) : T :=
  (at_ (fst e) 0 + (at_ (snd e) 0 - at_ (fst e) 0) * (at_ p 1 - at_ (fst e) 1) / (at_ (snd e) 1 - at_ (fst e) 1))%num.
Definition spans (p : coords T) (e : coords T * coords T) : bool := between (at_ (fst e) 1) (at_ p 1) (at_ (snd e) 1).
Definition touches (p : coords T) (e : coords T * coords T) : bool := spans p e && equal (at_ p 0) (cut_at p e) neps.
Definition passes (p : coords T) (e : coords T * coords T) : bool := spans p e && (at_ p 0 <? cut_at p e).
Lemma loop_par p proper es : forall hit, pg2_point_loop p proper es hit = if existsb (touches p) es then negb proper else xorb hit (par (passes p) es).
Proof.
  induction es as [|[i j] es IH]; intros hit; cbn [pg2_point_loop existsb]; [cbn; now rewrite xorb_false_r|].
  unfold touches at 1, spans. cbn [fst snd]. unfold par. cbn [fold_right]. unfold passes at 1, spans. cbn [fst snd]. fold (par (passes p) es).
  destruct (between (at_ i 1) (at_ p 1) (at_ j 1)); cbn [negb andb orb].
  - unfold cut_at. cbn [fst snd]. set (x := (at_ i 0 + _)%num). destruct (equal (at_ p 0) x neps); cbn [orb]; auto. rewrite IH. destruct (existsb (touches p) es); auto.
    destruct (at_ p 0 <? x), hit, (par (passes p) es); reflexivity.
  - rewrite IH. destruct (existsb (touches p) es); auto. now rewrite xorb_false_l.
Qed.
Lemma existsb_perm {A} (f : A -> bool) l l' : Permutation l l' -> existsb f l = existsb f l'.
Proof.
  induction 1 as [|x l l' _ IH|x y l|l1 l2 l3 _ IH1 _ IH2]; cbn [existsb]; auto; [now rewrite IH| |congruence].
  rewrite !orb_assoc. now rewrite (orb_comm (f y)).
Qed.
Lemma loop_perm p proper es es' hit : Permutation es es' -> pg2_point_loop p proper es hit = pg2_point_loop p proper es' hit.
Proof. intros P. rewrite !loop_par, (existsb_perm _ _ _ P), (par_perm _ _ _ P). reflexivity. Qed.
Lemma point_perm l l' p proper : l <> [] -> l' <> [] -> Permutation (sides l) (sides l') -> i_pg2_point l p proper = i_pg2_point l' p proper.
Proof.
  intros N N' P. unfold i_pg2_point. destruct l as [|c l]; [easy|]. destruct l' as [|c' l']; [easy|]. f_equal. apply loop_perm.
  rewrite (edges_sides (c :: l)), (edges_sides (c' :: l')). now apply Permutation_map.
Qed.
End Loop.

(** * Real coordinates *)
Section Real.
Context (eps : Epsilon).
Lemma spans_R (p : coords R) e : spans p e = xorb (Rlt_bool (co p 1) (co (fst e) 1)) (Rlt_bool (co p 1) (co (snd e) 1)).
Proof.
  unfold spans, between. change (at_ ?x 1) with (co x 1). cbn [nleb nltb Rnum]. unfold Rle_bool, Rlt_bool.
  destruct (Rcompare_spec (co (fst e) 1) (co p 1)), (Rcompare_spec (co p 1) (co (snd e) 1)), (Rcompare_spec (co (snd e) 1) (co p 1)), (Rcompare_spec (co p 1) (co (fst e) 1)); cbn; auto; lra.
Qed.
Lemma spans_ne (p : coords R) e : spans p e = true -> co (snd e) 1 - co (fst e) 1 <> 0.
Proof. rewrite spans_R. destruct (Rlt_bool_spec (co p 1) (co (fst e) 1)), (Rlt_bool_spec (co p 1) (co (snd e) 1)); cbn; try discriminate; lra. Qed.
Lemma cut_R (p : coords R) e : cut_at p e = co (fst e) 0 + (co (snd e) 0 - co (fst e) 0) * (co p 1 - co (fst e) 1) / (co (snd e) 1 - co (fst e) 1).
Proof. reflexivity. Qed.
Lemma cut_swap (p : coords R) e : spans p e = true -> cut_at p (swap e) = cut_at p e.
Proof. intros S. apply spans_ne in S. rewrite !cut_R. unfold swap. cbn [fst snd]. field. split; lra. Qed.
Lemma spans_swap (p : coords R) e : spans p (swap e) = spans p e.
Proof. rewrite !spans_R. unfold swap. cbn [fst snd]. apply xorb_comm. Qed.
Lemma touches_swap (p : coords R) e : touches p (swap e) = touches p e.
Proof. unfold touches. rewrite spans_swap. destruct (spans p e) eqn:S; auto. now rewrite (cut_swap p e S). Qed.
Lemma passes_swap (p : coords R) e : passes p (swap e) = passes p e.
Proof. unfold passes. rewrite spans_swap. destruct (spans p e) eqn:S; auto. now rewrite (cut_swap p e S). Qed.
Lemma existsb_map {A B} (f : B -> bool) (g : A -> B) l : existsb f (map g l) = existsb (fun x => f (g x)) l.
Proof. induction l as [|x l IH]; cbn; auto. now rewrite IH. Qed.
Lemma existsb_ext_ {A} (f g : A -> bool) l : (forall x, f x = g x) -> existsb f l = existsb g l.
Proof. intros H. induction l as [|x l IH]; cbn; auto. now rewrite H, IH. Qed.

(** The result in terms of the sides. *)
Lemma point_sides (l : list (coords R)) (p : coords R) proper : l <> [] ->
  i_pg2_point l p proper = Ret (if existsb (touches p) (sides l) then negb proper else par (passes p) (sides l)).
Proof.
  intros N. unfold i_pg2_point. destruct l as [|c l]; [easy|]. f_equal. rewrite loop_par, xorb_false_l.
  rewrite (existsb_perm _ _ _ (edges_sides (c :: l))), (par_perm _ _ _ (edges_sides (c :: l))), existsb_map, par_map.
  rewrite (existsb_ext_ _ (touches p)) by (intros; apply touches_swap). rewrite (par_ext _ (passes p)) by (intros; apply passes_swap). reflexivity.
Qed.

(** The crossing of the ray to the right. *)
Lemma passes_crossed (p : coords R) e : passes p e = crossed (1, 0) (rel (co p) (fst e)) (rel (co p) (snd e)).
Proof.
  unfold passes, crossed, above. rewrite spans_R. destruct e as [a b]. unfold rel, cr. cbn [fst snd].
  assert (E : forall c, Rlt_bool 0 (1 * (co c 1 - co p 1) - 0 * (co c 0 - co p 0)) = Rlt_bool (co p 1) (co c 1)).
  { intros c. destruct (Rlt_bool_spec (co p 1) (co c 1)); [apply Rlt_bool_true; lra|apply Rlt_bool_false; lra]. }
  rewrite !E. change (at_ p 0) with (co p 0). cbn [nltb Rnum]. rewrite cut_R. cbn [fst snd].
  destruct (Rlt_bool_spec (co p 1) (co a 1)) as [A|A], (Rlt_bool_spec (co p 1) (co b 1)) as [B|B]; cbn [xorb andb]; auto; apply eq_true_iff_eq; rewrite !Rltb_iff.
  - set (h := co b 1 - co a 1). assert (H : h < 0) by (unfold h; lra). set (q := (co b 0 - co a 0) * (co p 1 - co a 1)).
    assert (Q : q / h * h = q) by (field; lra). unfold h, q in *. split; intros G; nra.
  - set (h := co b 1 - co a 1). assert (H : 0 < h) by (unfold h; lra). set (q := (co b 0 - co a 0) * (co p 1 - co a 1)).
    assert (Q : q / h * h = q) by (field; lra). unfold h, q in *. split; intros G; nra.
Qed.
(** Where the side cuts the height of p. *)
Lemma cut_on_side (p : coords R) a b : spans p (a, b) = true -> on_side (co a) (co b) (fun k => match k with 0%nat => cut_at p (a, b) | _ => co p 1 end).
Proof.
  intros S. pose proof (spans_ne p (a, b) S) as N. rewrite spans_R in S. cbn [fst snd] in *.
  exists ((co p 1 - co a 1) / (co b 1 - co a 1)). split.
  - destruct (Rlt_bool_spec (co p 1) (co a 1)) as [A|A], (Rlt_bool_spec (co p 1) (co b 1)) as [B|B]; try discriminate.
    + replace ((co p 1 - co a 1) / (co b 1 - co a 1)) with ((co a 1 - co p 1) / (co a 1 - co b 1)) by (field; lra). split; [apply Rle_mult_inv_pos; lra|]. apply Rmult_le_reg_r with (co a 1 - co b 1); [lra|]. unfold Rdiv. rewrite Rmult_assoc, Rinv_l by lra. lra.
    + split; [apply Rle_mult_inv_pos; lra|]. apply Rmult_le_reg_r with (co b 1 - co a 1); [lra|]. unfold Rdiv. rewrite Rmult_assoc, Rinv_l by lra. lra.
  - intros i Hi. destruct i as [|[|i]]; [| |lia].
    + rewrite cut_R. cbn [fst snd]. field. lra.
    + field. lra.
Qed.
Lemma scale_le x y e : 0 <= e -> scale_eps x y e <= 2 * e * Rmax 1 (Rabs x).
Proof.
  intros He. unfold scale_eps. cbn [nabs nltb nldexp nfrexp Rnum]. pose proof (Rmax_l 1 (Rabs x)). pose proof (Rmax_r 1 (Rabs x)).
  set (z := if Rlt_bool _ _ then x else y). assert (Z : Rabs z <= Rabs x). { unfold z. destruct (Rlt_bool_spec (Rabs x) (Rabs y)); lra. }
  assert (B : bpow radix2 (Rfrexp z) <= 2 * Rmax 1 (Rabs x)).
  { destruct (Req_dec z 0) as [E|E]; [rewrite E, Rfrexp_0; cbn [bpow]; lra|]. destruct (Rfrexp_bounds z E) as [L _].
    assert (Q : bpow radix2 (Rfrexp z) = 2 * bpow radix2 (Rfrexp z - 1)). { replace (Rfrexp z) with (1 + (Rfrexp z - 1))%Z at 1 by lia. rewrite bpow_plus. reflexivity. } lra. }
  pose proof (Rmult_le_compat_l e _ _ He B). lra.
Qed.
Lemma clear_not_touching l (p : coords R) e : 0 <= (eps : R) -> clear_of eps l (co p) -> In e (sides l) -> touches p e = false.
Proof.
  intros He C I. unfold touches. destruct (spans p e) eqn:S; auto. cbn [andb]. destruct (equal (at_ p 0) (cut_at p e) neps) eqn:E; auto. exfalso.
  apply equal_iff in E. change (at_ p 0) with (co p 0) in E. cbn [neps Rnum] in E. pose proof (scale_le (co p 0) (cut_at p e) eps He).
  destruct e as [a b]. pose proof (C (fun k => match k with 0%nat => cut_at p (a, b) | _ => co p 1 end)) as Q. cbn beta iota in Q.
  assert (B : on_boundary l (fun k => match k with 0%nat => cut_at p (a, b) | _ => co p 1 end)). { exists a, b. split; auto. now apply cut_on_side. }
  specialize (Q B eq_refl). lra.
Qed.
Lemma clear_off l p : 0 <= (eps : R) -> clear_of eps l p -> ~ on_boundary l p.
Proof. intros He C B. specialize (C p B eq_refl). rewrite Rminus_diag_eq, Rabs_R0 in C by auto. pose proof (Rmax_l 1 (Rabs (p 0%nat))). nra. Qed.

Lemma sides_in {A} (l : list A) a b : In (a, b) (sides l) -> In a l /\ In b l.
Proof.
  destruct l as [|c rest]; [easy|]. unfold sides. intros I. pose proof (in_combine_l _ _ _ _ I) as L. pose proof (in_combine_r _ _ _ _ I) as R'. split; auto.
  apply in_app_iff in R'. destruct R' as [R'|[R'|[]]]; [right; auto|left; auto].
Qed.
Lemma parity_even_odd l (p : pt) d : ~ on_boundary l p -> d <> (0, 0) -> even_odd l p (parity p d l).
Proof.
  intros N D e n (E & Clr) C. assert (Ee : dv e <> (0, 0)). { intros Q. injection Q as Q0 Q1. apply E. intros i Hi. destruct i as [|[|i]]; auto; lia. }
  rewrite (parity_dir p d (dv e) l N D Ee). unfold parity. apply (par_counts (meets_ray p e)); auto.
  intros [a b] I. cbn [fst snd]. destruct (sides_in l a b I) as [Ia Ib]. apply ray_side; auto. intros S. apply N. exists a, b. auto.
Qed.
Lemma point_even_odd l (p : coords R) proper b : 0 <= (eps : R) -> clear_of eps l (co p) -> i_pg2_point l p proper = Ret b -> even_odd l (co p) b.
Proof.
  intros He C E. assert (Nn : l <> []) by (destruct l; [discriminate|easy]). rewrite point_sides in E by auto.
  assert (existsb (touches p) (sides l) = false) as Q.
  { apply not_true_is_false. intros X. apply existsb_exists in X. destruct X as (e & I & X). rewrite (clear_not_touching l p e He C I) in X. discriminate. }
  rewrite Q in E. injection E as <-. rewrite (par_ext _ (fun e => crossed (1, 0) (rel (co p) (fst e)) (rel (co p) (snd e)))) by (intros; apply passes_crossed).
  apply parity_even_odd; [now apply clear_off|]. intros X. injection X. lra.
Qed.

(** There are clear rays, and sides can be counted. *)
Lemma counts_exist {A} (P : A -> Prop) (l : list A) : (forall x, P x \/ ~ P x) -> exists n, counts P l n.
Proof. intros D. induction l as [|x l [n IH]]; [exists 0%nat; constructor|]. destruct (D x); [exists (S n); now constructor|exists n; now constructor]. Qed.
Lemma slope_above (l : list (coords R)) (p : pt) : exists m, forall c, In c l -> (co c 1 - p 1%nat) / (co c 0 - p 0%nat) < m.
Proof.
  induction l as [|c l (m & IH)]; [exists 0; easy|]. exists (Rmax m ((co c 1 - p 1%nat) / (co c 0 - p 0%nat)) + 1). intros x [<-|I].
  - pose proof (Rmax_r m ((co c 1 - p 1%nat) / (co c 0 - p 0%nat))). lra.
  - specialize (IH x I). pose proof (Rmax_l m ((co c 1 - p 1%nat) / (co c 0 - p 0%nat))). lra.
Qed.
Lemma side_start {A} (l : list A) c : In c l -> exists b, In (c, b) (sides l).
Proof.
  destruct l as [|z rest]; [easy|]. intros I. apply In_nth with (d := z) in I. destruct I as (i & Hi & E). exists (nth i (rest ++ [z]) z). unfold sides.
  replace (c, nth i (rest ++ [z]) z) with (nth i (combine (z :: rest) (rest ++ [z])) (z, z)). { apply nth_In. rewrite combine_length, app_length. cbn [length] in *. lia. }
  rewrite combine_nth by (rewrite app_length; cbn; lia). now rewrite E.
Qed.
Lemma clear_exists l (p : pt) : ~ on_boundary l p -> exists d, clear_ray l p d.
Proof.
  intros N. destruct (slope_above l p) as (m & M). exists (fun k => match k with 0%nat => 1 | _ => m end). split.
  - intros Z. specialize (Z 0%nat ltac:(lia)). cbn in Z. lra.
  - intros c I (t & T & E). pose proof (E 0%nat ltac:(lia)) as E0. pose proof (E 1%nat ltac:(lia)) as E1. cbn in E0, E1. specialize (M c I).
    destruct (Req_dec t 0) as [Z|Z].
    + apply N. destruct (side_start l c I) as (b & B). exists c, b. split; auto. exists 0. split; [lra|]. intros i Hi. rewrite (E i Hi), Z. lra.
    + replace (co c 0 - p 0%nat) with t in M by lra. replace (co c 1 - p 1%nat) with (t * m) in M by lra. replace (t * m / t) with m in M by (field; auto). lra.
Qed.
End Real.
