(** Two boxes in the plane: the separating-axis test is complete. *)
From Coq Require Import ZArith NArith Reals Bool List Lia Lra Psatz.
From Flocq Require Import Core.Raux.
From Verif Require Import Base Scalar ConstModel VecModel RotModel QuatModel ShapeModel IntersectModel RSpec VecSpec RotSpec ShapeSpec RLib MatLib OrdLib VecProofs VecProofs2 VecProofs3 VecProofs4 RotProofs2 RotProofs3 ShapeProofs ShapeProofs2 ShapeProofs3 BallProofs SphereProofs RbProofs RbProofs2.
Import ListNotations.
Open Scope R_scope.

(** Both comparisons at once. *)
Definition cmp (strict : bool) (x y : R) : Prop := if strict then x < y else x <= y.
Lemma cmp_le b x y : cmp b x y -> x <= y. Proof. destruct b; cbn; lra. Qed.
Lemma cmp_lin b x y u v : cmp b x y -> v - u >= y - x -> cmp b u v. Proof. destruct b; cbn; lra. Qed.
Lemma cmp_mul b x y k : 0 < k -> cmp b x y -> cmp b (k * x) (k * y).
Proof. intros K. destruct b; cbn; intros; [now apply Rmult_lt_compat_l|apply Rmult_le_compat_l; lra]. Qed.
Lemma cmp_div_l b u v k : 0 < k -> cmp b u (v * k) -> cmp b (u / k) v.
Proof. intros K C. apply (cmp_mul b _ _ (/ k)) in C; [|now apply Rinv_0_lt_compat]. apply (cmp_lin b _ _ _ _ C). apply Req_ge. field. lra. Qed.
Lemma cmp_div_r b u v k : 0 < k -> cmp b (u * k) v -> cmp b u (v / k).
Proof. intros K C. apply (cmp_mul b _ _ (/ k)) in C; [|now apply Rinv_0_lt_compat]. apply (cmp_lin b _ _ _ _ C). apply Req_ge. field. lra. Qed.
Lemma cmp_div2 b u v k m : 0 < k -> 0 < m -> cmp b (u * m) (v * k) -> cmp b (u / k) (v / m).
Proof. intros K M C. apply cmp_div_l; auto. unfold Rdiv. replace (v * / m * k) with (v * k / m) by (field; lra). now apply cmp_div_r. Qed.
Lemma cmp_max b x y z : cmp b x z -> cmp b y z -> cmp b (Rmax x y) z. Proof. unfold Rmax. destruct Rle_dec; auto. Qed.
Lemma cmp_min b x y z : cmp b x y -> cmp b x z -> cmp b x (Rmin y z). Proof. unfold Rmin. destruct Rle_dec; auto. Qed.
Lemma cmp_mid b x y : cmp b x y -> cmp b x ((x + y) / 2) /\ cmp b ((x + y) / 2) y. Proof. destruct b; cbn; lra. Qed.
Lemma cmp_weak b x y z : x <= y -> cmp b y z -> cmp b x z. Proof. destruct b; cbn; lra. Qed.
Lemma cmp_weak_r b x y z : cmp b x y -> y <= z -> cmp b x z. Proof. destruct b; cbn; lra. Qed.
Lemma between b (l u : list R) a0 b0 : (forall x y, In x (a0 :: l) -> In y (b0 :: u) -> cmp b x y) ->
  exists z, (forall x, In x (a0 :: l) -> cmp b x z) /\ (forall y, In y (b0 :: u) -> cmp b z y).
Proof.
  intros C.
  assert (Mx : exists m, In m (a0 :: l) /\ forall x, In x (a0 :: l) -> x <= m).
  { clear C. induction l as [|y l (m & I & B)]; [exists a0; split; [now left|]; intros x [->|[]]; lra|].
    destruct (Rle_dec y m).
    - exists m. split; [destruct I as [->|I]; [now left|right; now right]|]. intros x [->|[->|X]]; auto; apply B; [now left|now right].
    - exists y. split; [right; now left|]. intros x [->|[->|X]]; try lra; [specialize (B x (or_introl eq_refl)); lra|specialize (B x (or_intror X)); lra]. }
  assert (Mn : exists m, In m (b0 :: u) /\ forall x, In x (b0 :: u) -> m <= x).
  { clear C Mx. induction u as [|y u (m & I & B)]; [exists b0; split; [now left|]; intros x [->|[]]; lra|].
    destruct (Rle_dec m y).
    - exists m. split; [destruct I as [->|I]; [now left|right; now right]|]. intros x [->|[->|X]]; auto; apply B; [now left|now right].
    - exists y. split; [right; now left|]. intros x [->|[->|X]]; try lra; [specialize (B x (or_introl eq_refl)); lra|specialize (B x (or_intror X)); lra]. }
  destruct Mx as (m & I & B), Mn as (k & J & D). destruct (cmp_mid b m k (C _ _ I J)) as [P Q].
  exists ((m + k) / 2). split; intros x X; [apply (cmp_weak b _ m); auto|apply (cmp_weak_r b _ k); auto].
Qed.

(** The core: positive coefficients. *)
Lemma sat2_core b p q l1 h1 l2 h2 L1 H1 L2 H2 : 0 < p -> 0 < q -> p * p + q * q = 1 ->
  cmp b l1 h1 -> cmp b l2 h2 -> cmp b L1 H1 -> cmp b L2 H2 ->
  cmp b (p * L1 + q * L2) h1 -> cmp b l1 (p * H1 + q * H2) ->
  cmp b (q * L1 - p * H2) h2 -> cmp b l2 (q * H1 - p * L2) ->
  cmp b (p * l1 + q * l2) H1 -> cmp b L1 (p * h1 + q * h2) ->
  cmp b (q * l1 - p * h2) H2 -> cmp b L2 (q * h1 - p * l2) ->
  exists x1 x2, cmp b l1 x1 /\ cmp b x1 h1 /\ cmp b l2 x2 /\ cmp b x2 h2 /\
    cmp b L1 (p * x1 + q * x2) /\ cmp b (p * x1 + q * x2) H1 /\ cmp b L2 (q * x1 - p * x2) /\ cmp b (q * x1 - p * x2) H2.
Proof.
  intros P Q N B1 B2 B3 B4 X1 X1' X2 X2' Y1 Y1' Y2 Y2'.
  assert (Sub : forall z, p * p * z = z - q * q * z) by (intros z; replace (p * p) with (1 - q * q) by lra; ring).
  assert (Sub' : forall z, q * q * z = z - p * p * z) by (intros z; replace (q * q) with (1 - p * p) by lra; ring).
  pose proof (cmp_le _ _ _ B1) as B1e. pose proof (cmp_le _ _ _ B2) as B2e. pose proof (cmp_le _ _ _ B3) as B3e. pose proof (cmp_le _ _ _ B4) as B4e.
  assert (Pq : 0 < p * q) by now apply Rmult_lt_0_compat. assert (Pp : 0 < p * p) by now apply Rmult_lt_0_compat. assert (Qq : 0 < q * q) by now apply Rmult_lt_0_compat.
  assert (M1 : 0 <= p * (h2 - l2)) by (apply Rmult_le_pos; lra). assert (M2 : 0 <= q * (h2 - l2)) by (apply Rmult_le_pos; lra).
  assert (M3 : 0 <= p * p * (H1 - L1)) by (apply Rmult_le_pos; lra). assert (M4 : 0 <= q * q * (H2 - L2)) by (apply Rmult_le_pos; lra).
  destruct (between b [(L2 + p * l2) / q; (L1 - q * h2) / p; p * L1 + q * L2] [(H1 - q * l2) / p; (H2 + p * h2) / q; p * H1 + q * H2] l1 h1) as (x1 & A & B).
  { intros x y [<-|[<-|[<-|[<-|[]]]]] [<-|[<-|[<-|[<-|[]]]]]; auto.
    - apply cmp_div_r; auto. apply (cmp_lin b _ _ _ _ Y1). lra.
    - apply cmp_div_r; auto. apply (cmp_lin b _ _ _ _ Y2). lra.
    - apply cmp_div_l; auto. apply (cmp_lin b _ _ _ _ Y2'). lra.
    - apply cmp_div2; auto. apply (cmp_lin b _ _ _ _ X2'). pose proof (Sub l2). lra.
    - apply cmp_div2; auto. apply (cmp_lin b (q * L2) (q * H2)); [now apply cmp_mul|]. pose proof (Rmult_le_pos q _ (Rlt_le _ _ Q) M1). lra.
    - apply cmp_div_l; auto. apply (cmp_lin b _ _ _ _ (cmp_mul b _ _ p P X2')). pose proof (Sub L2). lra.
    - apply cmp_div_l; auto. apply (cmp_lin b _ _ _ _ Y1'). lra.
    - apply cmp_div2; auto. apply (cmp_lin b (p * L1) (p * H1)); [now apply cmp_mul|]. pose proof (Rmult_le_pos p _ (Rlt_le _ _ P) M2). lra.
    - apply cmp_div2; auto. apply (cmp_lin b _ _ _ _ X2). pose proof (Sub h2). lra.
    - apply cmp_div_l; auto. apply (cmp_lin b _ _ _ _ (cmp_mul b _ _ q Q X2)). pose proof (Sub L1). lra.
    - apply cmp_div_r; auto. apply (cmp_lin b _ _ _ _ (cmp_mul b _ _ q Q X2')). pose proof (Sub H1). lra.
    - apply cmp_div_r; auto. apply (cmp_lin b _ _ _ _ (cmp_mul b _ _ p P X2)). pose proof (Sub H2). lra.
    - apply (cmp_lin b (p * L1) (p * H1)); [now apply cmp_mul|]. assert (0 <= q * (H2 - L2)) by (apply Rmult_le_pos; lra). lra. }
  assert (A1 := A _ (or_introl eq_refl)). assert (A2 := A _ (or_intror (or_introl eq_refl))). assert (A3 := A _ (or_intror (or_intror (or_introl eq_refl)))). assert (A4 := A _ (or_intror (or_intror (or_intror (or_introl eq_refl))))).
  assert (C1 := B _ (or_introl eq_refl)). assert (C2 := B _ (or_intror (or_introl eq_refl))). assert (C3 := B _ (or_intror (or_intror (or_introl eq_refl)))). assert (C4 := B _ (or_intror (or_intror (or_intror (or_introl eq_refl))))).
  apply (cmp_mul b _ _ q Q) in A2, C3. apply (cmp_mul b _ _ p P) in A3, C2.
  replace (q * ((L2 + p * l2) / q)) with (L2 + p * l2) in A2 by (field; lra). replace (q * ((H2 + p * h2) / q)) with (H2 + p * h2) in C3 by (field; lra).
  replace (p * ((L1 - q * h2) / p)) with (L1 - q * h2) in A3 by (field; lra). replace (p * ((H1 - q * l2) / p)) with (H1 - q * l2) in C2 by (field; lra).
  destruct (between b [(L1 - p * x1) / q; (q * x1 - H2) / p] [(H1 - p * x1) / q; (q * x1 - L2) / p] l2 h2) as (x2 & D & E).
  { intros x y [<-|[<-|[<-|[]]]] [<-|[<-|[<-|[]]]]; auto.
    - apply cmp_div_r; auto. apply (cmp_lin b _ _ _ _ C2). lra.
    - apply cmp_div_r; auto. apply (cmp_lin b _ _ _ _ A2). lra.
    - apply cmp_div_l; auto. apply (cmp_lin b _ _ _ _ A3). lra.
    - apply cmp_div2; auto. apply (cmp_lin b (q * L1) (q * H1)); [now apply cmp_mul|lra].
    - apply cmp_div2; auto. apply (cmp_lin b _ _ _ _ A4). pose proof (Sub x1). lra.
    - apply cmp_div_l; auto. apply (cmp_lin b _ _ _ _ C3). lra.
    - apply cmp_div2; auto. apply (cmp_lin b _ _ _ _ C4). pose proof (Sub x1). lra.
    - apply cmp_div2; auto. apply (cmp_lin b (p * L2) (p * H2)); [now apply cmp_mul|lra]. }
  assert (D1 := D _ (or_introl eq_refl)). assert (D2 := D _ (or_intror (or_introl eq_refl))). assert (D3 := D _ (or_intror (or_intror (or_introl eq_refl)))).
  assert (E1 := E _ (or_introl eq_refl)). assert (E2 := E _ (or_intror (or_introl eq_refl))). assert (E3 := E _ (or_intror (or_intror (or_introl eq_refl)))).
  apply (cmp_mul b _ _ q Q) in D2, E2. apply (cmp_mul b _ _ p P) in D3, E3.
  replace (q * ((L1 - p * x1) / q)) with (L1 - p * x1) in D2 by (field; lra). replace (q * ((H1 - p * x1) / q)) with (H1 - p * x1) in E2 by (field; lra).
  replace (p * ((q * x1 - H2) / p)) with (q * x1 - H2) in D3 by (field; lra). replace (p * ((q * x1 - L2) / p)) with (q * x1 - L2) in E3 by (field; lra).
  exists x1, x2. repeat split; auto; [apply (cmp_lin b _ _ _ _ D2)|apply (cmp_lin b _ _ _ _ E2)|apply (cmp_lin b _ _ _ _ E3)|apply (cmp_lin b _ _ _ _ D3)]; lra.
Qed.

(** Smallest and largest m * x for x between l and h. *)
Definition lo (m l h : R) : R := if Rle_dec 0 m then m * l else m * h.
Definition hi (m l h : R) : R := if Rle_dec 0 m then m * h else m * l.

Lemma orth2_form M : orthogonal 2 M -> let p := M 0%nat 0%nat in let q := M 0%nat 1%nat in
  p * p + q * q = 1 /\ exists s, (s = 1 \/ s = -1) /\ M 1%nat 0%nat = - s * q /\ M 1%nat 1%nat = s * p.
Proof.
  intros O p q. pose proof (O 0%nat 0%nat ltac:(lia) ltac:(lia)) as A. pose proof (O 0%nat 1%nat ltac:(lia) ltac:(lia)) as B. pose proof (O 1%nat 1%nat ltac:(lia) ltac:(lia)) as C.
  unfold mmul, mtr, delta in A, B, C. cbn [Rsum Nat.eqb] in A, B, C. fold p q in A, B. set (u := M 1%nat 0%nat) in *. set (v := M 1%nat 1%nat) in *. clearbody p q u v.
  split; [lra|]. exists (p * v - q * u). split; [|split].
  - assert (D : (p * v - q * u) * (p * v - q * u) = 1).
    { transitivity ((p * p + q * q) * (u * u + v * v) - (p * u + q * v) * (p * u + q * v)); [ring|]. replace (p * p + q * q) with 1 by lra. replace (u * u + v * v) with 1 by lra. replace (p * u + q * v) with 0 by lra. ring. }
    set (z := p * v - q * u) in *. assert (Z : (z - 1) * (z + 1) = 0) by lra. apply Rmult_integral in Z. destruct Z; [left|right]; lra.
  - transitivity (u * (p * p + q * q) - p * (p * u + q * v)); [|ring]. replace (p * p + q * q) with 1 by lra. replace (p * u + q * v) with 0 by lra. ring.
  - transitivity (v * (p * p + q * q) - q * (p * u + q * v)); [|ring]. replace (p * p + q * q) with 1 by lra. replace (p * u + q * v) with 0 by lra. ring.
Qed.

Ltac kill_dec := repeat match goal with H : context [Rle_dec 0 ?m] |- _ => destruct (Rle_dec 0 m); [try (exfalso; lra)|try (exfalso; lra)] end.
Ltac by_cmp b := solve [assumption | match goal with K : cmp b ?x ?y |- cmp b ?u ?v => apply (cmp_lin b x y u v K); lra end].
Lemma sat2 b M (l h L H : pt) : orthogonal 2 M -> (forall i, (i < 2)%nat -> cmp b (l i) (h i)) -> (forall k, (k < 2)%nat -> cmp b (L k) (H k)) ->
  (forall i, (i < 2)%nat -> cmp b (Rsum 2 (fun k => lo (M k i) (L k) (H k))) (h i) /\ cmp b (l i) (Rsum 2 (fun k => hi (M k i) (L k) (H k)))) ->
  (forall k, (k < 2)%nat -> cmp b (Rsum 2 (fun i => lo (M k i) (l i) (h i))) (H k) /\ cmp b (L k) (Rsum 2 (fun i => hi (M k i) (l i) (h i)))) ->
  exists x : pt, (forall i, (i < 2)%nat -> cmp b (l i) (x i) /\ cmp b (x i) (h i)) /\
    forall k, (k < 2)%nat -> cmp b (L k) (mapply 2 M x k) /\ cmp b (mapply 2 M x k) (H k).
Proof.
  intros O Bx By X Y. destruct (orth2_form M O) as (N & s & S & E0 & E1).
  destruct (X 0%nat ltac:(lia)) as [X0 X0']. destruct (X 1%nat ltac:(lia)) as [X1 X1']. destruct (Y 0%nat ltac:(lia)) as [Y0 Y0']. destruct (Y 1%nat ltac:(lia)) as [Y1 Y1'].
  assert (Bx0 := Bx 0%nat ltac:(lia)). assert (Bx1 := Bx 1%nat ltac:(lia)). assert (By0 := By 0%nat ltac:(lia)). assert (By1 := By 1%nat ltac:(lia)). clear X Y Bx By O.
  unfold lo, hi in *. cbn [Rsum] in *. rewrite E0, E1 in *.
  set (p := M 0%nat 0%nat) in *. set (q := M 0%nat 1%nat) in *. assert (Ep : p = M 0%nat 0%nat) by reflexivity. assert (Eq : q = M 0%nat 1%nat) by reflexivity. clearbody p q.
  assert (Fin : (exists x0 x1, cmp b (l 0%nat) x0 /\ cmp b x0 (h 0%nat) /\ cmp b (l 1%nat) x1 /\ cmp b x1 (h 1%nat) /\
     cmp b (L 0%nat) (p * x0 + q * x1) /\ cmp b (p * x0 + q * x1) (H 0%nat) /\ cmp b (L 1%nat) (- s * q * x0 + s * p * x1) /\ cmp b (- s * q * x0 + s * p * x1) (H 1%nat)) ->
     exists x : pt, (forall i, (i < 2)%nat -> cmp b (l i) (x i) /\ cmp b (x i) (h i)) /\ forall k, (k < 2)%nat -> cmp b (L k) (mapply 2 M x k) /\ cmp b (mapply 2 M x k) (H k)).
  { intros (x0 & x1 & A & B & C & D & E & F & G & I). exists (fun i => match i with 0%nat => x0 | _ => x1 end). split.
    - intros i Hi. destruct i as [|[|]]; [split; auto|split; auto|lia].
    - intros k Hk. unfold mapply. cbn [Rsum]. destruct k as [|[|]]; [rewrite <- Ep, <- Eq|rewrite E0, E1|lia]; split;
      match goal with K : cmp b ?u ?v |- cmp b ?u' ?v' => replace v' with v by ring; assumption | K : cmp b ?u ?v |- cmp b ?u' ?v' => replace u' with u by ring; assumption end. }
  apply Fin. clear Fin E0 E1 Ep Eq M.
  destruct (Req_dec p 0) as [P0|P0]; [|destruct (Req_dec q 0) as [Q0|Q0]].
  - subst p. assert (Q1 : q = 1 \/ q = -1). { assert (Z : (q - 1) * (q + 1) = 0) by lra. apply Rmult_integral in Z. destruct Z; [left|right]; lra. }
    assert (T : exists x0 x1, cmp b (l 0%nat) x0 /\ cmp b x0 (h 0%nat) /\ cmp b (L 1%nat) (- s * q * x0) /\ cmp b (- s * q * x0) (H 1%nat) /\ cmp b (l 1%nat) x1 /\ cmp b x1 (h 1%nat) /\ cmp b (L 0%nat) (q * x1) /\ cmp b (q * x1) (H 0%nat)).
    { destruct S as [-> | ->], Q1 as [-> | ->]; kill_dec.
      + destruct (between b [- H 1%nat] [- L 1%nat] (l 0%nat) (h 0%nat)) as (x0 & A & B). { intros x y [<-|[<-|[]]] [<-|[<-|[]]]; by_cmp b. }
        destruct (between b [L 0%nat] [H 0%nat] (l 1%nat) (h 1%nat)) as (x1 & C & D). { intros x y [<-|[<-|[]]] [<-|[<-|[]]]; by_cmp b. }
        pose proof (A _ (or_introl eq_refl)). pose proof (A _ (or_intror (or_introl eq_refl))). pose proof (B _ (or_introl eq_refl)). pose proof (B _ (or_intror (or_introl eq_refl))).
        pose proof (C _ (or_introl eq_refl)). pose proof (C _ (or_intror (or_introl eq_refl))). pose proof (D _ (or_introl eq_refl)). pose proof (D _ (or_intror (or_introl eq_refl))).
        exists x0, x1. repeat split; by_cmp b.
      + destruct (between b [L 1%nat] [H 1%nat] (l 0%nat) (h 0%nat)) as (x0 & A & B). { intros x y [<-|[<-|[]]] [<-|[<-|[]]]; by_cmp b. }
        destruct (between b [- H 0%nat] [- L 0%nat] (l 1%nat) (h 1%nat)) as (x1 & C & D). { intros x y [<-|[<-|[]]] [<-|[<-|[]]]; by_cmp b. }
        pose proof (A _ (or_introl eq_refl)). pose proof (A _ (or_intror (or_introl eq_refl))). pose proof (B _ (or_introl eq_refl)). pose proof (B _ (or_intror (or_introl eq_refl))).
        pose proof (C _ (or_introl eq_refl)). pose proof (C _ (or_intror (or_introl eq_refl))). pose proof (D _ (or_introl eq_refl)). pose proof (D _ (or_intror (or_introl eq_refl))).
        exists x0, x1. repeat split; by_cmp b.
      + destruct (between b [L 1%nat] [H 1%nat] (l 0%nat) (h 0%nat)) as (x0 & A & B). { intros x y [<-|[<-|[]]] [<-|[<-|[]]]; by_cmp b. }
        destruct (between b [L 0%nat] [H 0%nat] (l 1%nat) (h 1%nat)) as (x1 & C & D). { intros x y [<-|[<-|[]]] [<-|[<-|[]]]; by_cmp b. }
        pose proof (A _ (or_introl eq_refl)). pose proof (A _ (or_intror (or_introl eq_refl))). pose proof (B _ (or_introl eq_refl)). pose proof (B _ (or_intror (or_introl eq_refl))).
        pose proof (C _ (or_introl eq_refl)). pose proof (C _ (or_intror (or_introl eq_refl))). pose proof (D _ (or_introl eq_refl)). pose proof (D _ (or_intror (or_introl eq_refl))).
        exists x0, x1. repeat split; by_cmp b.
      + destruct (between b [- H 1%nat] [- L 1%nat] (l 0%nat) (h 0%nat)) as (x0 & A & B). { intros x y [<-|[<-|[]]] [<-|[<-|[]]]; by_cmp b. }
        destruct (between b [- H 0%nat] [- L 0%nat] (l 1%nat) (h 1%nat)) as (x1 & C & D). { intros x y [<-|[<-|[]]] [<-|[<-|[]]]; by_cmp b. }
        pose proof (A _ (or_introl eq_refl)). pose proof (A _ (or_intror (or_introl eq_refl))). pose proof (B _ (or_introl eq_refl)). pose proof (B _ (or_intror (or_introl eq_refl))).
        pose proof (C _ (or_introl eq_refl)). pose proof (C _ (or_intror (or_introl eq_refl))). pose proof (D _ (or_introl eq_refl)). pose proof (D _ (or_intror (or_introl eq_refl))).
        exists x0, x1. repeat split; by_cmp b. }
    destruct T as (x0 & x1 & T1 & T2 & T3 & T4 & T5 & T6 & T7 & T8). exists x0, x1. repeat split; by_cmp b.
  - subst q. assert (P1 : p = 1 \/ p = -1). { assert (Z : (p - 1) * (p + 1) = 0) by lra. apply Rmult_integral in Z. destruct Z; [left|right]; lra. }
    assert (T : exists x0 x1, cmp b (l 0%nat) x0 /\ cmp b x0 (h 0%nat) /\ cmp b (L 0%nat) (p * x0) /\ cmp b (p * x0) (H 0%nat) /\ cmp b (l 1%nat) x1 /\ cmp b x1 (h 1%nat) /\ cmp b (L 1%nat) (s * p * x1) /\ cmp b (s * p * x1) (H 1%nat)).
    { destruct S as [-> | ->], P1 as [-> | ->]; kill_dec.
      + destruct (between b [L 0%nat] [H 0%nat] (l 0%nat) (h 0%nat)) as (x0 & A & B). { intros x y [<-|[<-|[]]] [<-|[<-|[]]]; by_cmp b. }
        destruct (between b [L 1%nat] [H 1%nat] (l 1%nat) (h 1%nat)) as (x1 & C & D). { intros x y [<-|[<-|[]]] [<-|[<-|[]]]; by_cmp b. }
        pose proof (A _ (or_introl eq_refl)). pose proof (A _ (or_intror (or_introl eq_refl))). pose proof (B _ (or_introl eq_refl)). pose proof (B _ (or_intror (or_introl eq_refl))).
        pose proof (C _ (or_introl eq_refl)). pose proof (C _ (or_intror (or_introl eq_refl))). pose proof (D _ (or_introl eq_refl)). pose proof (D _ (or_intror (or_introl eq_refl))).
        exists x0, x1. repeat split; by_cmp b.
      + destruct (between b [- H 0%nat] [- L 0%nat] (l 0%nat) (h 0%nat)) as (x0 & A & B). { intros x y [<-|[<-|[]]] [<-|[<-|[]]]; by_cmp b. }
        destruct (between b [- H 1%nat] [- L 1%nat] (l 1%nat) (h 1%nat)) as (x1 & C & D). { intros x y [<-|[<-|[]]] [<-|[<-|[]]]; by_cmp b. }
        pose proof (A _ (or_introl eq_refl)). pose proof (A _ (or_intror (or_introl eq_refl))). pose proof (B _ (or_introl eq_refl)). pose proof (B _ (or_intror (or_introl eq_refl))).
        pose proof (C _ (or_introl eq_refl)). pose proof (C _ (or_intror (or_introl eq_refl))). pose proof (D _ (or_introl eq_refl)). pose proof (D _ (or_intror (or_introl eq_refl))).
        exists x0, x1. repeat split; by_cmp b.
      + destruct (between b [L 0%nat] [H 0%nat] (l 0%nat) (h 0%nat)) as (x0 & A & B). { intros x y [<-|[<-|[]]] [<-|[<-|[]]]; by_cmp b. }
        destruct (between b [- H 1%nat] [- L 1%nat] (l 1%nat) (h 1%nat)) as (x1 & C & D). { intros x y [<-|[<-|[]]] [<-|[<-|[]]]; by_cmp b. }
        pose proof (A _ (or_introl eq_refl)). pose proof (A _ (or_intror (or_introl eq_refl))). pose proof (B _ (or_introl eq_refl)). pose proof (B _ (or_intror (or_introl eq_refl))).
        pose proof (C _ (or_introl eq_refl)). pose proof (C _ (or_intror (or_introl eq_refl))). pose proof (D _ (or_introl eq_refl)). pose proof (D _ (or_intror (or_introl eq_refl))).
        exists x0, x1. repeat split; by_cmp b.
      + destruct (between b [- H 0%nat] [- L 0%nat] (l 0%nat) (h 0%nat)) as (x0 & A & B). { intros x y [<-|[<-|[]]] [<-|[<-|[]]]; by_cmp b. }
        destruct (between b [L 1%nat] [H 1%nat] (l 1%nat) (h 1%nat)) as (x1 & C & D). { intros x y [<-|[<-|[]]] [<-|[<-|[]]]; by_cmp b. }
        pose proof (A _ (or_introl eq_refl)). pose proof (A _ (or_intror (or_introl eq_refl))). pose proof (B _ (or_introl eq_refl)). pose proof (B _ (or_intror (or_introl eq_refl))).
        pose proof (C _ (or_introl eq_refl)). pose proof (C _ (or_intror (or_introl eq_refl))). pose proof (D _ (or_introl eq_refl)). pose proof (D _ (or_intror (or_introl eq_refl))).
        exists x0, x1. repeat split; by_cmp b. }
    destruct T as (x0 & x1 & T1 & T2 & T3 & T4 & T5 & T6 & T7 & T8). exists x0, x1. repeat split; by_cmp b.
  - destruct (Rlt_dec 0 p) as [Pp|Pn]; destruct (Rlt_dec 0 q) as [Qp|Qn]; destruct S as [-> | ->]; kill_dec.
    + destruct (sat2_core b p q (l 0%nat) (h 0%nat) (l 1%nat) (h 1%nat) (L 0%nat) (H 0%nat) (- H 1%nat) (- L 1%nat)) as (x0 & x1 & A & B & C & D & E & F & G & I); try lra; try by_cmp b.
      exists x0, x1. repeat split; by_cmp b.
    + destruct (sat2_core b p q (l 0%nat) (h 0%nat) (l 1%nat) (h 1%nat) (L 0%nat) (H 0%nat) (L 1%nat) (H 1%nat)) as (x0 & x1 & A & B & C & D & E & F & G & I); try lra; try by_cmp b.
      exists x0, x1. repeat split; by_cmp b.
    + destruct (sat2_core b p (- q) (l 0%nat) (h 0%nat) (- h 1%nat) (- l 1%nat) (L 0%nat) (H 0%nat) (L 1%nat) (H 1%nat)) as (x0 & x1 & A & B & C & D & E & F & G & I); try lra; try by_cmp b.
      exists x0, (- x1). repeat split; by_cmp b.
    + destruct (sat2_core b p (- q) (l 0%nat) (h 0%nat) (- h 1%nat) (- l 1%nat) (L 0%nat) (H 0%nat) (- H 1%nat) (- L 1%nat)) as (x0 & x1 & A & B & C & D & E & F & G & I); try lra; try by_cmp b.
      exists x0, (- x1). repeat split; by_cmp b.
    + destruct (sat2_core b (- p) q (- h 0%nat) (- l 0%nat) (l 1%nat) (h 1%nat) (L 0%nat) (H 0%nat) (L 1%nat) (H 1%nat)) as (x0 & x1 & A & B & C & D & E & F & G & I); try lra; try by_cmp b.
      exists (- x0), x1. repeat split; by_cmp b.
    + destruct (sat2_core b (- p) q (- h 0%nat) (- l 0%nat) (l 1%nat) (h 1%nat) (L 0%nat) (H 0%nat) (- H 1%nat) (- L 1%nat)) as (x0 & x1 & A & B & C & D & E & F & G & I); try lra; try by_cmp b.
      exists (- x0), x1. repeat split; by_cmp b.
    + destruct (sat2_core b (- p) (- q) (- h 0%nat) (- l 0%nat) (- h 1%nat) (- l 1%nat) (L 0%nat) (H 0%nat) (- H 1%nat) (- L 1%nat)) as (x0 & x1 & A & B & C & D & E & F & G & I); try lra; try by_cmp b.
      exists (- x0), (- x1). repeat split; by_cmp b.
    + destruct (sat2_core b (- p) (- q) (- h 0%nat) (- l 0%nat) (- h 1%nat) (- l 1%nat) (L 0%nat) (H 0%nat) (L 1%nat) (H 1%nat)) as (x0 & x1 & A & B & C & D & E & F & G & I); try lra; try by_cmp b.
      exists (- x0), (- x1). repeat split; by_cmp b.
Qed.
