(** C29 and C51 in doubles: setVals() and reading a matrix from text. *)
From Coq Require Import ZArith NArith Reals Bool SpecFloat Lia Lra List Ascii.
From Flocq Require Import Core IEEE754.BinarySingleNaN.
From Verif Require Import Base Scalar ConstModel RLib B64Lib RSpec VecModel RotModel VecSpec ConstSpec RotSpec RoundSpec RotRoundSpec StreamModel DecModel PropRotDouble.
Import ListNotations.
Open Scope R_scope.

(** ** The parity *)
(** The product of rotations about x by 2.4, about z by pi/2 and about x by 2.4: orthogonal to within two half units, with a determinant
    near 1.  setVals takes it, and says that it is a mirror. *)
Definition M_mirrored : rotmatrix spec_float :=
  mkM [[S754_finite false 4967757600021511 (-106); S754_finite true 6641852125073797 (-53); S754_finite false 6084031456465307 (-53)];
       [S754_finite false 6641852125073797 (-53); S754_finite true 8219078476314614 (-54); S754_finite true 8972653122305537 (-54)];
       [S754_finite false 6084031456465307 (-53); S754_finite false 8972653122305537 (-54); S754_finite false 4897660016583684 (-53)]] false true 1.
Theorem C29_parity_double_refuted : forall (m : libm) (old : rotmatrix spec_float), exists M, near_orthogonal m 3 M (2 * half_ulp) /\ 99 / 100 <= det3 (mco m M) /\
  exists M', set_vals (H := B64 m) 3 1 old (me M) (neps (Num := B64 m)) = Some (true, M') /\ me M' = me M /\ parity M' = true.
Proof.
  intros m old. exists M_mirrored.
  set (a := mco m M_mirrored). assert (E : forall k l, (k < 3)%nat -> (l < 3)%nat -> a k l = nth l (nth k
    [[4967757600021511 * bpow radix2 (-106); -6641852125073797 * bpow radix2 (-53); 6084031456465307 * bpow radix2 (-53)]; [6641852125073797 * bpow radix2 (-53); -8219078476314614 * bpow radix2 (-54); -8972653122305537 * bpow radix2 (-54)];
     [6084031456465307 * bpow radix2 (-53); 8972653122305537 * bpow radix2 (-54); 4897660016583684 * bpow radix2 (-53)]] []) 0).
  { intros k l Hk Hl. destruct k as [|[|[|k]]], l as [|[|[|l]]]; try lia; reflexivity. }
  split; [split; [mdouble|]|split].
  - intros i j Hi Hj. fold a. clearbody a. assert (Q : Rsum 3 (fun k => a i k * a j k) = a i 0%nat * a j 0%nat + a i 1%nat * a j 1%nat + a i 2%nat * a j 2%nat) by (cbn [Rsum]; ring). rewrite Q, !E by lia.
    unfold half_ulp, bpow. change (Z.pow_pos radix2 53) with 9007199254740992%Z. change (Z.pow_pos radix2 54) with 18014398509481984%Z. change (Z.pow_pos radix2 106) with 81129638414606681695789005144064%Z.
    destruct i as [|[|[|i]]], j as [|[|[|j]]]; try lia; cbn [nth]; unfold delta; cbn [Nat.eqb]; apply Rabs_le; lra.
  - clearbody a. unfold det3. rewrite !E by lia. cbn [nth]. unfold bpow. change (Z.pow_pos radix2 53) with 9007199254740992%Z. change (Z.pow_pos radix2 54) with 18014398509481984%Z. change (Z.pow_pos radix2 106) with 81129638414606681695789005144064%Z. lra.
  - eexists. split; [vm_compute; reflexivity|]. split; reflexivity.
Qed.
Print Assumptions C29_parity_double_refuted.

(** ** The loop of setVals *)
Section Loop.
Variable m : libm.
Variable n : nat.
Variable p : spec_float.
(** k rounds of the loop that do not end it *)
Fixpoint rounds (k : nat) (v : mat spec_float) : option (mat spec_float) :=
  match k with
  | O => Some v
  | S k => let t := orth_defect (H := B64 m) n v in
           if (nltb (Num := B64 m) p t || nleb (Num := B64 m) t (neps (Num := B64 m)))%bool then None
           else match matrix_inverse (H := B64 m) n (transpose (H := B64 m) n v) (mtab n (kron (H := B64 m))) with None => None | Some b => rounds k (average (H := B64 m) n v b) end
  end.
Lemma rounds_run k : forall v w f, rounds k v = Some w -> set_vals_loop (H := B64 m) n (k + f) p v = set_vals_loop (H := B64 m) n f p w.
Proof.
  induction k as [|k IH]; intros v w f E; cbn [rounds] in E; [now inversion E|]. cbn [Nat.add set_vals_loop].
  destruct (nltb (Num := B64 m) p (orth_defect (H := B64 m) n v)) eqn:A; [discriminate|]. destruct (nleb (Num := B64 m) (orth_defect (H := B64 m) n v) (neps (Num := B64 m))) eqn:B; [discriminate|]. cbn [orb] in E.
  destruct (matrix_inverse _ _ _) as [b|]; [|discriminate]. now apply IH.
Qed.
Lemma rounds_less k : forall v w f, rounds k v = Some w -> (f <= k)%nat -> set_vals_loop (H := B64 m) n f p v = None.
Proof.
  induction k as [|k IH]; intros v w f E L; [destruct f; [reflexivity|lia]|]. destruct f as [|f]; [reflexivity|]. cbn [rounds] in E. cbn [set_vals_loop].
  destruct (nltb (Num := B64 m) p (orth_defect (H := B64 m) n v)) eqn:A; [discriminate|]. destruct (nleb (Num := B64 m) (orth_defect (H := B64 m) n v) (neps (Num := B64 m))) eqn:B; [discriminate|]. cbn [orb] in E.
  destruct (matrix_inverse _ _ _) as [b|]; [|discriminate]. apply (IH _ w); auto. lia.
Qed.
Lemma rounds_for_ever k c v w : rounds k v = Some w -> rounds (S c) w = Some w -> forall f, set_vals_loop (H := B64 m) n f p v = None.
Proof.
  intros A B. assert (W : forall f, set_vals_loop (H := B64 m) n f p w = None).
  { induction f as [f IH] using lt_wf_ind. destruct (Nat.le_gt_cases f (S c)); [now apply (rounds_less (S c) w w)|]. replace f with (S c + (f - S c))%nat by lia. rewrite (rounds_run (S c) w w) by exact B. apply IH. lia. }
  intros f. destruct (Nat.le_gt_cases f k); [now apply (rounds_less k v w)|]. replace f with (k + (f - k))%nat by lia. rewrite (rounds_run k v w) by exact A. apply W.
Qed.
End Loop.
(** The rotation of the plane by a quarter turn and 0.0000984794 radians. *)
Definition M_quarter : rotmatrix spec_float :=
  mkM [[S754_finite true 7266497153329890 (-66); S754_finite false 9007199211064217 (-53)]; [S754_finite true 9007199211064217 (-53); S754_finite true 7266497153329890 (-66)]] false true 1.
Definition vals_quarter : mat spec_float := [[S754_finite true 7266497153329890 (-66); b64_ofZ 1]; [b64_ofZ (-1); S754_finite true 7266497153329890 (-66)]].
Definition vals_cycle : mat spec_float := [[S754_finite true 7266497149097302 (-66); S754_finite false 9007199211064218 (-53)]; [S754_finite true 9007199211064217 (-53); S754_finite true 7266497119271140 (-66)]].
(** 0.00001 as stream.cpp computes it for six digits *)
Definition tol6 : spec_float := S754_finite false 5902958103587057 (-69).
Lemma loops m f : set_vals_loop (H := B64 m) 2 f tol6 vals_quarter = None.
Proof. apply (rounds_for_ever m 2 tol6 28 1 vals_quarter vals_cycle); vm_compute; reflexivity. Qed.
Lemma quarter_loops m f old : set_vals (H := B64 m) 2 f old vals_quarter tol6 = None.
Proof.
  unfold set_vals. replace (nabs (Num := B64 m) tol6) with tol6 by (vm_compute; reflexivity). replace (nleb (Num := B64 m) (nine_tenths (H := B64 m)) tol6) with false by (vm_compute; reflexivity).
  replace (mtab 2 (fun i j => mget (H := B64 m) vals_quarter i j)) with vals_quarter by (vm_compute; reflexivity). now rewrite loops.
Qed.
(** setVals never returns, although the rows are orthonormal to within 10^-8 and the precision asked for is 10^-5. *)
Theorem C29_terminates_double_refuted : forall (m : libm) (old : rotmatrix spec_float), exists M, near_orthogonal m 2 M (/ 100000000) /\ forall fuel, set_vals (H := B64 m) 2 fuel old (me M) tol6 = None.
Proof.
  intros m old. exists (mkM vals_quarter false true 1). split; [|intros fuel; apply quarter_loops]. set (M := mkM vals_quarter false true 1).
  split; [intros i j Hi Hj; destruct i as [|[|i]], j as [|[|j]]; try lia; (split; [reflexivity|exact Logic.I])|]. intros i j Hi Hj. set (a := mco m M).
  assert (E : forall k l, (k < 2)%nat -> (l < 2)%nat -> a k l = nth l (nth k [[-7266497153329890 * bpow radix2 (-66); 4503599627370496 * bpow radix2 (-52)]; [-4503599627370496 * bpow radix2 (-52); -7266497153329890 * bpow radix2 (-66)]] []) 0).
  { intros k l Hk Hl. destruct k as [|[|k]], l as [|[|l]]; try lia; reflexivity. }
  clearbody a. assert (Q : Rsum 2 (fun k => a i k * a j k) = a i 0%nat * a j 0%nat + a i 1%nat * a j 1%nat) by (cbn [Rsum]; ring). rewrite Q, !E by lia.
  unfold bpow. change (Z.pow_pos radix2 52) with 4503599627370496%Z. change (Z.pow_pos radix2 66) with 73786976294838206464%Z.
  destruct i as [|[|i]], j as [|[|j]]; try lia; cbn [nth]; unfold delta; cbn [Nat.eqb]; apply Rabs_le; lra.
Qed.
Print Assumptions C29_terminates_double_refuted.

(** ** Text *)
(** A rotation of the plane, orthogonal to within one half unit, written with the six digits a stream has by default: reading the text
    back never ends.  The rotation of C70_normalize_refuted, written so, is refused. *)
Lemma quarter_read m fuel old : read_matrix (H := B64 m) scan_double fuel 2 6 old (Some (write_matrix (print_double 6) M_quarter)) = NoFuel.
Proof.
  set (t := write_matrix (print_double 6) M_quarter). vm_compute in t. unfold read_matrix.
  assert (A : expect "("%char None (Some t) = Got tt (Some (tl t))) by (vm_compute; reflexivity).
  assert (B : read_rows scan_double (n0 (H := B64 m)) 2 2 "("%char (Some (tl t)) = Got vals_quarter (Some [])) by (vm_compute; reflexivity).
  assert (C : ConstModel.float_max (H := B64 m) (neps (Num := B64 m)) (get_epsilon (H := B64 m) 6) = tol6) by (vm_compute; reflexivity).
  match goal with |- iobind ?a _ = _ => replace a with (Got tt (Some (tl t) : stream)) by (symmetry; exact A) end. cbn [iobind].
  match goal with |- iobind ?a _ = _ => replace a with (Got vals_quarter (Some [] : stream)) by (symmetry; exact B) end. cbn [iobind].
  rewrite C. now rewrite quarter_loops.
Qed.
Theorem C51_matrix_double_refuted : forall m : libm,
  (exists M, near_orthogonal m 2 M half_ulp /\ mvalid M = true /\ forall fuel old, read_matrix (H := B64 m) scan_double fuel 2 6 old (Some (write_matrix (print_double 6) M)) = NoFuel) /\
  (exists M, near_orthogonal m 3 M half_ulp /\ mvalid M = true /\ forall fuel old, (5 <= fuel)%nat -> read_matrix (H := B64 m) scan_double fuel 3 6 old (Some (write_matrix (print_double 6) M)) = ParseError).
Proof.
  intros m. split.
  - exists M_quarter. split; [|split; [reflexivity|intros; apply quarter_read]].
    split; [intros i j Hi Hj; destruct i as [|[|i]], j as [|[|j]]; try lia; (split; [reflexivity|exact Logic.I])|]. intros i j Hi Hj. set (a := mco m M_quarter).
    assert (E : forall k l, (k < 2)%nat -> (l < 2)%nat -> a k l = nth l (nth k [[-7266497153329890 * bpow radix2 (-66); 9007199211064217 * bpow radix2 (-53)]; [-9007199211064217 * bpow radix2 (-53); -7266497153329890 * bpow radix2 (-66)]] []) 0).
    { intros k l Hk Hl. destruct k as [|[|k]], l as [|[|l]]; try lia; reflexivity. }
    clearbody a. assert (Q : Rsum 2 (fun k => a i k * a j k) = a i 0%nat * a j 0%nat + a i 1%nat * a j 1%nat) by (cbn [Rsum]; ring). rewrite Q, !E by lia.
    unfold half_ulp, bpow. change (Z.pow_pos radix2 53) with 9007199254740992%Z. change (Z.pow_pos radix2 66) with 73786976294838206464%Z.
    destruct i as [|[|i]], j as [|[|j]]; try lia; cbn [nth]; unfold delta; cbn [Nat.eqb]; apply Rabs_le; lra.
  - exists M_turned. split; [apply turned_near|]. split; [reflexivity|]. intros fuel old L. do 5 (destruct fuel as [|fuel]; [lia|]). vm_compute. reflexivity.
Qed.
Print Assumptions C51_matrix_double_refuted.
