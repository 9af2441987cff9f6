(** Specification vocabulary for enclosing balls of lists of points of R^d. *)
From Coq Require Import Reals List.
From Verif Require Import RSpec.
Import ListNotations.
Open Scope R_scope.

(** The coordinates of a point. *)
Definition pc (p : list R) : nat -> R := fun i => nth i p 0.

(** All the points are in the ball with centre c and squared radius r; all are on its sphere. *)
Definition encloses (d : nat) (c : nat -> R) (r : R) (l : list (list R)) : Prop := forall p, In p l -> dist2 d (pc p) c <= r.
Definition on_sphere (d : nat) (c : nat -> R) (r : R) (l : list (list R)) : Prop := forall p, In p l -> dist2 d (pc p) c = r.
(** The smallest ball with all the points in it; no other ball is as small. *)
Definition smallest (d : nat) (c : nat -> R) (r : R) (l : list (list R)) : Prop :=
  encloses d c r l /\ forall c' r', encloses d c' r' l -> r <= r' /\ (r' <= r -> forall i, (i < d)%nat -> c' i = c i).

(** Weighted points: total weight and weighted sum. *)
Definition total (w : list (R * list R)) : R := fold_right (fun a s => fst a + s) 0 w.
Definition weighted (w : list (R * list R)) (i : nat) : R := fold_right (fun a s => fst a * pc (snd a) i + s) 0 w.
(** x is in the affine hull, in the convex hull, of the points. *)
Definition in_affine (d : nat) (l : list (list R)) (x : nat -> R) : Prop :=
  exists w, map snd w = l /\ total w = 1 /\ forall i, (i < d)%nat -> x i = weighted w i.
Definition in_hull (d : nat) (l : list (list R)) (x : nat -> R) : Prop :=
  exists w, map snd w = l /\ Forall (fun a => 0 <= fst a) w /\ total w = 1 /\ forall i, (i < d)%nat -> x i = weighted w i.

(** No point of the list is very near, compared with the size of the whole, to the affine hull of others without
    being in it: twice the squared distance is at least tau times the squared radius R2 of some ball around all. *)
Definition spread (d : nat) (tau : R) (l : list (list R)) : Prop :=
  exists c R2, encloses d c R2 l /\
    forall b p, incl b l -> In p l -> in_affine d b (pc p) \/ forall x, in_affine d b x -> tau * R2 <= 2 * dist2 d (pc p) x.
