(** normalize() succeeds on rotations; the determinant of setVals in 2D; the
    antiparallel case of rotation(from, to); rotations about an axis. *)
From Coq Require Import Reals Lra Lia List Bool Psatz ZArith NArith.
From Flocq Require Import Core.Zaux Core.Raux.
From Verif Require Import Base Scalar ConstModel VecModel RotModel RSpec RLib VecSpec VecProofs VecProofs2 VecProofs4 RotSpec MatLib RotProofs RotProofs2 RotProofs3 RotProofs4 RotProofs5.
Import ListNotations.
Open Scope R_scope.

Section A.
Context (eps : Epsilon).

Lemma normalize_total_2 m : orthogonal 2 (ent m) -> exists m', rot_normalize 2 m = Ret m'.
Proof.
  intros O. unfold rot_normalize. destruct (matrix_inverse 2 (transpose 2 (me m)) (mtab 2 kron)) eqn:E; [eauto|].
  exfalso. apply inverse_success_2 in E; auto. apply orthogonal_ext with (mtr (ent m)); [|apply orthogonal_tr; auto].
  apply meq_sym. apply (transpose_rc eps).
Qed.
Lemma normalize_total_3 m : orthogonal 3 (ent m) -> (forall j, (j < 3)%nat -> not_denormal (ent m 0 j)) -> exists m', rot_normalize 3 m = Ret m'.
Proof.
  intros O ND. unfold rot_normalize. destruct (matrix_inverse 3 (transpose 3 (me m)) (mtab 3 kron)) eqn:E; [eauto|].
  exfalso. apply inverse_success_3 in E; auto.
  - apply orthogonal_ext with (mtr (ent m)); [|apply orthogonal_tr; auto]. apply meq_sym. apply (transpose_rc eps).
  - intros r Hr. rewrite (transpose_rc eps 3) by lia. apply ND; auto.
Qed.

Lemma prod_with_total_2 f (m1 m2 : rotmatrix R) : (mvalid m1 = true -> mvalid m2 = true -> orthogonal 2 f) ->
  exists m, prod_with 2 f m1 m2 = Ret m.
Proof.
  intros O. unfold prod_with, check_norm. cbn [mage mvalid].
  destruct ((N.of_nat max_norm_age <=? age_add (mage m1) (mage m2))%N && (mvalid m1 && mvalid m2)) eqn:E; [|eauto].
  apply andb_true_iff in E as [_ E]. apply andb_true_iff in E as [E1 E2].
  apply normalize_total_2. apply orthogonal_ext with f; [|apply O; auto]. intros i j Hi Hj. unfold ent. cbn [me]. rewrite rc_mtab; auto.
Qed.
End A.

Section B.
Context (eps : Epsilon).
(** 2D: the product of the pivots has the sign of the determinant *)
Lemma det_sign_2 (v : mat R) : (eps : R) <= / 4 ->
  (forall i j, (i < 2)%nat -> (j < 2)%nat -> Rabs (mmul 2 (rc v) (mtr (rc v)) i j - delta i j) <= eps) ->
  det 2 (rc v) <> 0 /\ Rlt_bool (matrix_det 2 v) 0 = Rlt_bool (det 2 (rc v)) 0.
Proof.
  intros He D.
  assert (D00 := D 0%nat 0%nat ltac:(lia) ltac:(lia)). assert (D11 := D 1%nat 1%nat ltac:(lia) ltac:(lia)). assert (D01 := D 0%nat 1%nat ltac:(lia) ltac:(lia)). clear D.
  unfold mmul, mtr, delta in *. cbn [Rsum Nat.eqb] in *.
  pose proof small1023 as SM. pose proof TINY_eq as TE.
  unfold det, det2, matrix_det. cbn [Nat.sub seq fold_left]. unfold det_step.
  assert (M0 := minval_def eps 2 v 0). assert (MP := minval_pos eps 2 v 0).
  set (mv := minval 2 v 0) in *.
  assert (ML : mv <= (rc v 0 0 * rc v 0 0 + rc v 1 0 * rc v 1 0 + 2) * bpow radix2 (-1023)).
  { apply minval_le with (rc v 0 0 * rc v 0 0 + rc v 1 0 * rc v 1 0); [cbn [Rsum]; lra|nra|nra]. }
  clear M0. tom.
  set (a := rc v 0 0) in *. set (b := rc v 0 1) in *. set (c := rc v 1 0) in *. set (d := rc v 1 1) in *.
  apply Rabs_le_inv in D00. apply Rabs_le_inv in D11. apply Rabs_le_inv in D01.
  assert (DD : / 4 <= (a * d - b * c) * (a * d - b * c)).
  { replace ((a * d - b * c) * (a * d - b * c)) with ((a * a + b * b) * (c * c + d * d) - (a * c + b * d) * (a * c + b * d)) by ring.
    assert (3 / 4 <= a * a + b * b) by lra. assert (3 / 4 <= c * c + d * d) by lra. assert (-/4 <= a * c + b * d <= /4) by lra. nra. }
  assert (0 <= a * a) by nra. assert (0 <= b * b) by nra. assert (0 <= c * c) by nra. assert (0 <= d * d) by nra.
  assert (Sm : mv <= / 1000) by nra.
  split; [intros Z; rewrite Z in DD; lra|].
  destruct (Rlt_bool_spec (a * a) mv) as [L|L].
  - assert (AD : -/10 <= a * d <= / 10).
    { assert ((a * d) * (a * d) <= / 100) by (replace ((a * d) * (a * d)) with ((a * a) * (d * d)) by ring; nra). split; nra. }
    destruct (find_row 2 v 0 mv) as [j|] eqn:F.
    + apply find_row_some in F as [Hj F]. assert (j = 1%nat) as -> by lia. fold c in F.
      assert (c <> 0) by (intros Z; rewrite Z in F; lra).
      match goal with |- Rlt_bool ?x 0 = _ => replace x with (- (b * c)) end.
      * destruct (Rlt_bool_spec (- (b * c)) 0); destruct (Rlt_bool_spec (a * d - b * c) 0); auto; exfalso; nra.
      * tom. rewrite !rc_mtab by lia. cbn [Nat.ltb Nat.leb Nat.eqb andb]. unfold det_add_row. rewrite !rc_mtab by lia. cbn [Nat.ltb Nat.leb Nat.eqb andb]. tom. fold a b c d.
        replace (c / c) with 1 by (field; auto). rewrite Req_bool_false by lra. simpl. ring.
    + exfalso. pose proof (find_row_none eps 2 v 0 mv 1 F ltac:(lia)) as G. fold c in G.
      assert ((b * c) * (b * c) <= / 100) by (replace ((b * c) * (b * c)) with ((b * b) * (c * c)) by ring; nra).
      assert (-/10 <= b * c <= / 10) by (split; nra). nra.
  - assert (a <> 0) by (intros Z; rewrite Z in L; lra).
    f_equal. tom. rewrite !rc_mtab by lia. cbn [Nat.ltb Nat.leb Nat.eqb andb]. tom. fold a b c d.
    destruct (Req_bool_spec (c / a) 0) as [Z|Z]; simpl.
    + assert (c = 0) as Z0 by (replace c with (c / a * a) by (field; auto); rewrite Z; ring). rewrite Z0. ring.
    + field; auto.
Qed.

(** ** rotation(from, to), antiparallel, 2D *)
Lemma from_to_antiparallel_2 from to m : 0 < (eps : R) -> exact_dot eps 2 from to -> ~ not_antiparallel eps 2 from to ->
  rot_from_to 2 from to = Ret m ->
  let k := inner 2 (co from) (co to) / (norm 2 (co from) * norm 2 (co to)) + 1 in
  0 <= k < eps /\ mvalid m = true /\ mflip m = false /\
  meq 2 (mmul 2 (ent m) (mtr (ent m))) (fun i j => (1 + k * k) * delta i j).
Proof.
  intros He Ed An. unfold rot_from_to. rewrite !sqr_mag_norm2 by lra. unfold oassert. cbn [nltb n0 nofZ Rnum].
  destruct (Rlt_bool_spec 0 (norm2 2 (co from))) as [P|]; [|discriminate].
  destruct (Rlt_bool_spec 0 (norm2 2 (co to))) as [Q|]; [|discriminate].
  rewrite Ed. cbn [nmul nsqrt ndiv nadd neps n1 nofZ Rnum].
  replace (sqrt (norm2 2 (co from) * norm2 2 (co to))) with (norm 2 (co from) * norm 2 (co to)) by (unfold norm; symmetry; apply sqrt_mult; lra).
  set (k := inner 2 (co from) (co to) / (norm 2 (co from) * norm 2 (co to)) + 1).
  assert (K : k < eps) by (unfold not_antiparallel in An; fold k in An; lra).
  rewrite (Rlt_bool_true k eps) by exact K. cbn [Nat.eqb].
  assert (K0 : 0 <= k).
  { unfold k. assert (0 < norm 2 (co from)) by (apply sqrt_lt_R0; auto). assert (0 < norm 2 (co to)) by (apply sqrt_lt_R0; auto).
    pose proof (cauchy_schwarz 2 (co from) (co to)) as C. 
    assert (- (norm 2 (co from) * norm 2 (co to)) <= inner 2 (co from) (co to)).
    { assert (N2 : norm 2 (co from) * norm 2 (co from) = norm2 2 (co from)) by (apply sqrt_sqrt; lra).
      assert (N3 : norm 2 (co to) * norm 2 (co to) = norm2 2 (co to)) by (apply sqrt_sqrt; lra).
      rewrite <- N2, <- N3 in C. assert (0 < norm 2 (co from) * norm 2 (co to)) by nra. nra. }
    assert (0 < norm 2 (co from) * norm 2 (co to)) by nra.
    replace (inner 2 (co from) (co to) / (norm 2 (co from) * norm 2 (co to)) + 1) with ((inner 2 (co from) (co to) + norm 2 (co from) * norm 2 (co to)) / (norm 2 (co from) * norm 2 (co to))) by (field; lra).
    apply Rmult_le_pos; [lra|left; apply Rinv_0_lt_compat; auto]. }
  intros X. inversion X; subst m; clear X.
  split; [lra|]. split; [reflexivity|]. split; [reflexivity|].
  set (s := sqrt (2 * k)). assert (S2 : s * s = 2 * k) by (apply sqrt_sqrt; lra).
  match goal with |- context [if ?b then _ else _] => set (sg := if b then s else - s) end.
  assert (G2 : sg * sg = 2 * k) by (unfold sg; match goal with |- context [if ?b then _ else _] => destruct b end; nra).
  intros i j Hi Hj. unfold ent, mmul, mtr, delta, rc. cbn [me].
  destruct i as [|[|]]; try lia; destruct j as [|[|]]; try lia; cbn [Rsum nth Nat.eqb]; change (nsub k n1) with (k - 1); cbn [nopp Rnum];
    change (sqrt (n2 * k)) with s; fold sg; nra.
Qed.
End B.
