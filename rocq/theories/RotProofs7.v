(** The counterexample for antiparallel vectors in 2D, and rotations about an axis. *)
From Coq Require Import Reals Lra Lia List Bool Psatz ZArith NArith.
From Flocq Require Import Core.Zaux Core.Raux.
From Verif Require Import Base Scalar ConstModel VecModel RotModel RSpec RLib VecSpec VecProofs VecProofs2 VecProofs4 RotSpec MatLib RotProofs RotProofs2 RotProofs3 RotProofs4 RotProofs5 RotProofs6.
Import ListNotations.
Open Scope R_scope.

Section A.
Context (eps : Epsilon).
Lemma sqrt_facts : 0 < (eps : R) <= / 4 -> exists t g, 0 < t <= 1 /\ t * t = eps /\ 1 < g /\ g * g = 1 + eps /\ t = sqrt eps /\ g = sqrt (1 + eps).
Proof.
  intros He. exists (sqrt eps), (sqrt (1 + eps)).
  assert (0 < sqrt eps) by (apply sqrt_lt_R0; lra). assert (sqrt eps * sqrt eps = eps) by (apply sqrt_sqrt; lra).
  assert (0 < sqrt (1 + eps)) by (apply sqrt_lt_R0; lra). assert (sqrt (1 + eps) * sqrt (1 + eps) = 1 + eps) by (apply sqrt_sqrt; lra).
  repeat split; auto; nra.
Qed.
Lemma antiparallel_witness : 0 < (eps : R) <= / 4 ->
  exists from to m, valid from = true /\ valid to = true /\ exact_dot eps 2 from to /\ rot_from_to 2 from to = Ret m /\ mvalid m = true /\
    ~ orthogonal 2 (ent m) /\ ~ (exists k, 0 < k /\ forall i, (i < 2)%nat -> co (vec_rotate 2 from m) i = k * co to i).
Proof.
  intros He. destruct (sqrt_facts He) as (t & g & Ht & Tt & Hg & Gg & Et & Eg).
  set (from := mkC [1; 0] true : vector R). set (to := mkC [-1; t] true : vector R).
  assert (I : inner 2 (co from) (co to) = -1) by (unfold inner, co; cbn [Rsum el from to nth]; lra).
  assert (NF : norm2 2 (co from) = 1) by (unfold norm2, inner, co; cbn [Rsum el from to nth]; lra).
  assert (NT : norm2 2 (co to) = 1 + eps) by (unfold norm2, inner, co; cbn [Rsum el from to nth]; lra).
  assert (ED : exact_dot eps 2 from to).
  { unfold exact_dot. rewrite dot_def. rewrite I. rewrite Rle_bool_true; auto.
    assert (U : scale_eps_arr (el from) (el to) eps <= 2 * eps * Rmin 1 1).
    { apply (arr_bound eps 2); try lra; try reflexivity.
      - exists 0%nat. split; [lia|]. unfold co. simpl. lra.
      - exists 0%nat. split; [lia|]. unfold co. simpl. lra.
      - intros i Hi. unfold co. destruct i as [|[|]]; try lia; simpl; [rewrite Rabs_R1|rewrite Rabs_R0]; lra.
      - intros i Hi. unfold co. destruct i as [|[|]]; try lia; simpl; [rewrite Rabs_left|rewrite Rabs_pos_eq]; lra. }
    rewrite Rmin_left in U by lra. rewrite Rabs_left by lra. lra. }
  assert (N1 : norm 2 (co from) = 1) by (unfold norm; rewrite NF; apply sqrt_1).
  assert (N2 : norm 2 (co to) = g) by (unfold norm; rewrite NT; auto).
  set (k := 1 - / g).
  assert (KK : inner 2 (co from) (co to) / (norm 2 (co from) * norm 2 (co to)) + 1 = k) by (rewrite I, N1, N2; unfold k; field; lra).
  assert (K0 : 0 < k).
  { unfold k. assert (/ g < 1) by (rewrite <- Rinv_1; apply Rinv_lt_contravar; lra). lra. }
  assert (K1 : k < eps).
  { unfold k. assert (g * / g = 1) by (field; lra). assert (0 < / g) by (apply Rinv_0_lt_compat; lra). nra. }
  assert (AN : ~ not_antiparallel eps 2 from to) by (unfold not_antiparallel; rewrite KK; lra).
  set (s := sqrt (2 * k)). assert (0 < s) by (apply sqrt_lt_R0; lra).
  assert (EV : rot_from_to 2 from to = Ret (mkM [[k - 1; - s]; [- - s; k - 1]] false true 1)).
  { unfold rot_from_to. rewrite !sqr_mag_norm2. rewrite NF, NT, ED, I. unfold oassert. cbn [nltb n0 nofZ Rnum].
    rewrite !Rlt_bool_true by lra. cbn [nmul nsqrt ndiv nadd neps n1 nofZ Rnum]. rewrite Rmult_1_l, <- Eg.
    replace (-1 / g + 1) with k by (unfold k; field; lra). rewrite (Rlt_bool_true k eps) by exact K1. cbn [Nat.eqb].
    replace (nleb 0 _) with false; [reflexivity|].
    symmetry. cbn [nleb Rnum]. apply Rle_bool_false. toco. unfold co. cbn [el from to nth]. lra. }
  exists from, to, (mkM [[k - 1; - s]; [- - s; k - 1]] false true 1).
  repeat split; auto.
  - intros O. destruct (from_to_antiparallel_2 eps from to _ ltac:(lra) ED AN EV) as (_ & _ & _ & M).
    specialize (O 0%nat 0%nat ltac:(lia) ltac:(lia)). rewrite M in O by lia. rewrite KK in O. unfold delta in O. simpl in O. nra.
  - intros (c & Hc & E). specialize (E 1%nat ltac:(lia)). rewrite (rotate_co eps 2) in E by lia.
    unfold mapply, mtr, ent, rc, co in E. cbn [Rsum me el from to nth] in E. nra.
Qed.

(** ** Rotation about an axis *)
Definition unit_vector (k : nat) : vector R := mkC (tab 3 (fun i => if Nat.eqb i k then 1 else 0)) false.
Definition exact_cross (a b : vector R) : Prop := forall i, (i < 3)%nat -> co (cross3 (H := Rnum eps) a b) i = cross_coord (co a) (co b) i.

Lemma main_comp_range axis mc : main_comp (H := Rnum eps) axis = Some mc -> (mc < 3)%nat.
Proof.
  unfold main_comp. cbn [seq fold_left].
  repeat match goal with |- context [if ?b then _ else _] => destruct b end; cbn [snd]; intros X; inversion X; lia.
Qed.

Lemma rot_axis_form axis k theta m : 0 < (eps : R) ->
  exact_cross axis (unit_vector k) -> exact_cross axis (cross3 axis (unit_vector k)) -> (k < 3)%nat ->
  rot_vectors 3 (cross3 axis (unit_vector k)) (cross3 axis (cross3 axis (unit_vector k))) theta = Ret m ->
  0 < norm2 3 (co axis) /\ mvalid m = true /\ mflip m = false /\
  forall v i, (i < 3)%nat -> co (vec_rotate 3 v m) i =
    cos theta * co v i + sin theta / norm 3 (co axis) * cross_coord (co axis) (co v) i
    + (1 - cos theta) * inner 3 (co axis) (co v) / norm2 3 (co axis) * co axis i.
Proof.
  intros He E1 E2 Hk. set (e := unit_vector k) in *. set (v1 := cross3 axis e) in *. set (v2 := cross3 axis v1) in *.
  assert (U : forall j, (j < 3)%nat -> co e j = if Nat.eqb j k then 1 else 0) by (intros j Hj; unfold e, unit_vector; rewrite co_tab by auto; reflexivity).
  assert (V1 := E1). assert (V2 : forall i, (i < 3)%nat -> co v2 i = cross_coord (co axis) (co v1) i) by exact E2.
  assert (V10 := V1 0%nat ltac:(lia)). assert (V11 := V1 1%nat ltac:(lia)). assert (V12 := V1 2%nat ltac:(lia)).
  assert (V20 := V2 0%nat ltac:(lia)). assert (V21 := V2 1%nat ltac:(lia)). assert (V22 := V2 2%nat ltac:(lia)).
  fold v1 in V10, V11, V12. unfold cross_coord in *. rewrite !U in V10, V11, V12 by lia. clear V1 V2 E2.
  assert (IN : inner 3 (co v1) (co v2) = 0) by (unfold inner; cbn [Rsum]; rewrite V20, V21, V22; ring).
  assert (ED : exact_dot eps 3 v1 v2).
  { unfold exact_dot. rewrite dot_def, IN. destruct (Rle_bool _ _); auto. }
  intros M. destruct (vectors_ent eps 3 v1 v2 theta m He ED M) as (P & Q & _ & EM & F & V).
  assert (W : forall i, perp 3 v1 v2 i = co v2 i) by (intros; unfold perp; rewrite IN; unfold Rdiv; ring).
  assert (Q' : norm2 3 (perp 3 v1 v2) = norm2 3 (co v2)) by (unfold norm2, inner; cbn [Rsum]; rewrite !W; reflexivity).
  rewrite Q' in *. 
  set (p := norm2 3 (co v1)) in *. set (N := norm2 3 (co axis)).
  assert (R : norm2 3 (co v2) = p * N) by (unfold p, N, norm2, inner; cbn [Rsum]; rewrite V20, V21, V22, V10, V11, V12; destruct k as [|[|[|]]]; try lia; cbn [Nat.eqb]; ring).
  assert (NP : 0 < N) by nra.
  assert (Sq : sqrt (p * norm2 3 (co v2)) = p * norm 3 (co axis)).
  { rewrite R. replace (p * (p * N)) with ((p * p) * N) by ring. rewrite sqrt_mult by nra. rewrite sqrt_square by lra. reflexivity. }
  split; [exact NP|]. split; [auto|]. split; [auto|]. intros v i Hi.
  rewrite (rotate_co eps 3) by auto. 
  assert (SP : 0 < norm 3 (co axis)) by (apply sqrt_lt_R0; auto). set (s := norm 3 (co axis)) in *.
  unfold mapply, mtr. cbn [Rsum]. rewrite !EM by lia. unfold rank2. rewrite !W, Sq, R.
  assert (Pp : p = norm2 3 (co v1)) by reflexivity. assert (Np : N = norm2 3 (co axis)) by reflexivity.
  fold N. clearbody p N s. unfold norm2, inner in Pp, Np |- *. cbn [Rsum] in Pp, Np |- *.
  rewrite ?V10, ?V11, ?V12 in V20, V21, V22, Pp. clear IN ED EM W Q' U E1 R M Sq.
  assert (Hs : s <> 0) by lra. assert (Hp : p <> 0) by lra. assert (HN : N <> 0) by lra. clear P Q NP SP.
  unfold delta.
  destruct k as [|[|[|]]]; try lia; cbn [Nat.eqb] in *;
  (destruct i as [|[|[|]]]; try lia; cbn [Nat.eqb]; subst p N; rewrite ?V20, ?V21, ?V22, ?V10, ?V11, ?V12 in *).
  all: field; repeat split; auto;
    let Z := fresh in intros Z; first [apply Hp; etransitivity; [|exact Z]; ring|apply HN; etransitivity; [|exact Z]; ring].
Qed.

(** Every axis: the cross products the constructor takes are the exact ones (they
    round coordinates below the tolerance to zero). *)
Definition exact_axis (axis : vector R) : Prop :=
  forall k, (k < 3)%nat -> exact_cross axis (unit_vector k) /\ exact_cross axis (cross3 axis (unit_vector k)).
Definition turns_about (axis : nat -> R) (theta : R) (m : rotmatrix R) : Prop :=
  forall v i, (i < 3)%nat -> co (vec_rotate (H := Rnum eps) 3 v m) i =
    cos theta * co v i + sin theta / norm 3 axis * cross_coord axis (co v) i
    + (1 - cos theta) * inner 3 axis (co v) / norm2 3 axis * axis i.

Lemma axis_with_acts axis mc theta m : 0 < (eps : R) -> exact_axis axis -> (mc < 3)%nat -> rot_axis_with axis mc theta = Ret m ->
  0 < norm2 3 (co axis) /\ mvalid m = true /\ mflip m = false /\ turns_about (co axis) theta m.
Proof.
  intros He Ex Hm. unfold rot_axis_with. 
  set (k := match mc with O => 2%nat | S k => k end). assert (Hk : (k < 3)%nat) by (unfold k; destruct mc; lia).
  destruct (Ex k Hk) as [E1 E2]. apply (rot_axis_form axis k theta m He E1 E2 Hk).
Qed.
Lemma axis_acts axis theta m : 0 < (eps : R) -> exact_axis axis -> rot_axis axis theta = Ret m ->
  0 < norm2 3 (co axis) /\ mvalid m = true /\ mflip m = false /\ turns_about (co axis) theta m.
Proof.
  intros He Ex. unfold rot_axis. destruct (main_comp axis) as [mc|] eqn:E; [|discriminate].
  apply axis_with_acts; auto. apply (main_comp_range axis); auto.
Qed.
Lemma axis_mag_acts axis m : 0 < (eps : R) -> exact_axis axis -> rot_axis_mag axis = Ret m ->
  (norm 3 (co axis) = 0 /\ m = rot_identity 3) \/ (mvalid m = true /\ mflip m = false /\ turns_about (co axis) (norm 3 (co axis)) m).
Proof.
  intros He Ex. unfold rot_axis_mag. rewrite mag_norm. cbn [neqb Rnum n0 nofZ]. destruct (Req_bool_spec (norm 3 (co axis)) 0) as [Z|Z].
  - intros X; inversion X; subst. auto.
  - destruct (main_comp axis) as [mc|] eqn:E; [|discriminate]. intros M. right.
    apply axis_with_acts in M; auto; [tauto|]. apply (main_comp_range axis); auto.
Qed.
(** A turn about an axis keeps the axis *)
Lemma turns_fixes axis theta m : 0 < norm2 3 axis -> turns_about axis theta m ->
  forall v, (forall i, (i < 3)%nat -> co v i = axis i) -> forall i, (i < 3)%nat -> co (vec_rotate 3 v m) i = co v i.
Proof.
  intros P TU v E i Hi. rewrite TU by auto. assert (inner 3 axis (co v) = norm2 3 axis) as -> by (unfold norm2, inner; cbn [Rsum]; rewrite !E by lia; auto).
  assert (cross_coord axis (co v) i = 0) as -> by (unfold cross_coord; rewrite !E by lia; destruct i as [|[|[|]]]; try lia; ring).
  rewrite E by auto. assert (0 < norm 3 axis) by (apply sqrt_lt_R0; auto). field. split; lra.
Qed.
End A.
