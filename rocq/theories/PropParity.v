(** C29: the parity flag that setVals stores is the sign of the determinant of what it stores. *)
From Coq Require Import ZArith Reals List Lra Lia Bool.
From Flocq Require Import Core.Raux Core.Zaux.
From Verif Require Import Base Scalar ConstModel VecModel RotModel RSpec RotSpec RotProofs4 RotProofs6 PropRot DetSign3.
Import ListNotations.
Open Scope R_scope.

(** For the two dimensions the library is built for.  The elimination replaces a pivot instead of adding to it, so
    the product of the pivots need not be the determinant of a matrix that is only orthogonal within epsilon; its
    sign is right whatever is lost. *)
Theorem C29_parity : forall (eps : Epsilon) n f m vals prec m', (n = 2 \/ n = 3)%nat -> (eps : R) <= / 100 -> set_vals n f m vals prec = Some (true, m') ->
  det n (ent m') <> 0 /\ (parity m' = true <-> det n (ent m') < 0).
Proof.
  intros eps n f m vals prec m' Hn He E. pose proof (set_vals_sound eps n f m vals prec true m' E) as (_ & D & _ & _ & _ & F).
  assert (X : det n (ent m') <> 0 /\ Rlt_bool (matrix_det n (me m')) 0 = Rlt_bool (det n (ent m')) 0).
  { destruct Hn as [-> | ->]; [apply det_sign_2; auto; lra|apply det_sign_3; auto]. }
  destruct X as [N S]. split; [exact N|]. unfold parity. rewrite F, S.
  destruct (Rlt_bool_spec (det n (ent m')) 0); split; intros; auto; try discriminate; lra.
Qed.
Print Assumptions C29_parity.

(** A reflection that has no usable pivot at first: the elimination takes the row-adding path. *)
Example C29_parity_example : exists m', set_vals (H := Rnum (/ 128)) 3 1 (rot_default (H := Rnum (/ 128)) 3) [[0; 0; 1]; [0; -1; 0]; [-1; 0; 0]] (/ 2) = Some (true, m') /\ mflip m' = true.
Proof.
  assert (O : orthogonal 3 (rc [[0; 0; 1]; [0; -1; 0]; [-1; 0; 0]])).
  { intros i j Hi Hj. unfold mmul, mtr, rc, delta. destruct i as [|[|[|]]]; try lia; destruct j as [|[|[|]]]; try lia; cbn; lra. }
  destruct (C29_exact_input_kept (/ 128) 3 0 (rot_default (H := Rnum (/ 128)) 3) [[0; 0; 1]; [0; -1; 0]; [-1; 0; 0]] (/ 2)) as (m' & E & M); auto; try lra.
  - split; [reflexivity|]. intros i Hi. destruct i as [|[|[|]]]; try lia; reflexivity.
  - rewrite Rabs_pos_eq by lra. unfold nine_tenths. cbn [nldexp nofZ Rnum]. change (bpow radix2 (-53)) with (/ 9007199254740992). lra.
  - exists m'. split; [exact E|]. apply (C29_parity (/ 128) 3 1 (rot_default (H := Rnum (/ 128)) 3) _ _ m' ltac:(auto) ltac:(lra) E). unfold ent. rewrite M. unfold det, det3, rc. simpl. lra.
Qed.
