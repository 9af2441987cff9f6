(** C59 below 1/2: LogGamma and Gamma by reflection are what they are meant to be. *)
From Coq Require Import ZArith Reals List Lra Lia Psatz Bool.
From Coquelicot Require Import Coquelicot.
From Flocq Require Import Core.Raux.
From Verif Require Import Base Scalar RLib MiniballModel ProbModel GammaSpec GammaProofs SineProduct ProbSpec ProbProofs ProbProofs2 ProbProofs6 PropProb.
Open Scope R_scope.

(** Below 1/2, off the poles: h is the value at 1 - z.  Gamma's own value there is the one the reflection formula gives
    (Euler's product for the sine, SineProduct). *)
Theorem C59_gamma_below_partial : forall eps u z g h, 1 / 10 ^ 17 <= u -> z < 1 / 2 -> sin (PI * z) <> 0 -> is_Gamma z g -> is_Gamma (1 - z) h ->
  (exists v w, log_gamma (H := Rnum eps) (H0 := Rtrans u) z = Some (Ret v) /\ gamma (H := Rnum eps) (H0 := Rtrans u) z = Some (Ret w) /\
    Rabs (v - ln (Rabs g)) <= u * (Rabs (ln h) + 1 / 120) + 1 / 30000 / Rmax (1 - z) 10 ^ 7 /\
    within (u * (Rabs (ln h) + 1 / 120) + 1 / 30000 / Rmax (1 - z) 10 ^ 7) (w / g) 1) \/
  (log_gamma (H := Rnum eps) (H0 := Rtrans u) z = Some AssertFail /\ Rabs (ln h) < 1 / 100).
Proof.
  intros eps u z g h Hu Hz Hs G Hh. pose proof PI_RGT_0 as Pp. pose proof (gamma_reflection z g h Hs G Hh) as Re.
  assert (Ph : 0 < h). { destruct (C59_gamma_exists (1 - z) ltac:(lra)) as (h' & Hh' & P). replace h with h'; auto. pose proof (is_lim_seq_unique _ _ Hh) as A. pose proof (is_lim_seq_unique _ _ Hh') as B. rewrite A in B. now injection B. }
  assert (Ng : g <> 0). { intros ->. rewrite Rmult_0_l in Re. apply Hs. apply Rmult_eq_reg_l with (/ PI); [|apply Rinv_neq_0_compat; lra]. symmetry in Re. apply Rmult_integral in Re. destruct Re as [Z|Z]; [lra|]. exfalso. revert Z. now apply Rinv_neq_0_compat. }
  destruct (C59_log_gamma_partial eps u (1 - z) h Hu ltac:(lra) Hh) as [(b & E & _ & B)|(E & B)].
  - left. destruct (C59_reflection eps u z b Hz E) as (E1 & E2). do 2 eexists. split; [exact E1|]. split; [exact E2|].
    assert (L : ln (Rabs g) = ln PI - ln h - ln (Rabs (sin (PI * z)))).
    { replace g with (PI / (h * sin (PI * z))) by (apply Rmult_eq_reg_r with h; [rewrite Re; field; split; lra|lra]).
      unfold Rdiv. rewrite Rabs_mult, Rabs_inv, Rabs_mult, (Rabs_pos_eq PI), (Rabs_pos_eq h) by lra. assert (0 < Rabs (sin (PI * z))) by (now apply Rabs_pos_lt).
      rewrite ln_mult, ln_Rinv, ln_mult; auto; try lra; try (apply Rinv_0_lt_compat); apply Rmult_lt_0_compat; auto. }
    split.
    + replace (ln PI - b - ln (Rabs (sin (PI * z))) - ln (Rabs g)) with (- (b - ln h)) by lra. now rewrite Rabs_Ropp.
    + unfold within. assert (Q : PI * exp (- b) / sin (PI * z) / g = exp (ln h - b)).
      { unfold Rminus. rewrite exp_plus, exp_ln by auto. apply Rmult_eq_reg_r with (g * h); [|nra]. rewrite Re at 2. field_simplify; auto; try (split; auto). }
      rewrite Q, !Rmult_1_l. apply Rabs_le_between in B. split; apply exp_mono; lra.
  - right. split; auto. unfold log_gamma in *. cbn [log_gamma_] in *. change (nltb z nhalf) with (Rlt_bool z (1 / 2)). rewrite Rlt_bool_true by auto. change (nsub n1 z) with (1 - z) in *. change (nltb (1 - z) nhalf) with (Rlt_bool (1 - z) (1 / 2)) in *. rewrite Rlt_bool_false in * by lra.
    match type of E with ?a = _ => match goal with |- rbind ?b _ = _ => change b with a end end. rewrite E. reflexivity.
Qed.
Print Assumptions C59_gamma_below_partial.
(** Every argument that is not a whole number has the two values. *)
Example C59_gamma_below_example : forall z, z < 1 / 2 -> sin (PI * z) <> 0 -> exists g h, is_Gamma z g /\ is_Gamma (1 - z) h.
Proof.
  intros z Hz Hs. destruct (C59_gamma_exists (1 - z) ltac:(lra)) as (h & Hh & P). exists (PI / (sin (PI * z) * h)), h. split; auto. apply gamma_reflected; auto. apply Rgt_not_eq. exact P.
Qed.
