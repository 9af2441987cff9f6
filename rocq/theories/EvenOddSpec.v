(** The even-odd rule for polygons in the plane, stated with rays in every direction. *)
From Coq Require Import Reals List Bool.
From Verif Require Import Base Scalar VecModel VecSpec RSpec ShapeSpec.
Import ListNotations.
Open Scope R_scope.

(** The sides of a closed polygon: every corner with the next one, the first after the last. *)
Definition sides {A} (l : list A) : list (A * A) :=
  match l with [] => [] | c :: rest => combine l (rest ++ [c]) end.

(** x lies on the side from a to b. *)
Definition on_side (a b x : pt) : Prop := exists s, 0 <= s <= 1 /\ pteq 2 x (fun k => (1 - s) * a k + s * b k).
Definition on_boundary (l : list (coords R)) (x : pt) : Prop :=
  exists a b, In (a, b) (sides l) /\ on_side (co a) (co b) x.
(** The ray from p in direction d, and whether a side meets it. *)
Definition on_ray (p d x : pt) : Prop := exists t, 0 <= t /\ pteq 2 x (fun k => p k + t * d k).
Definition meets_ray (p d : pt) (side : coords R * coords R) : Prop :=
  exists x, on_ray p d x /\ on_side (co (fst side)) (co (snd side)) x.
(** A direction whose ray from p goes through no corner. *)
Definition clear_ray (l : list (coords R)) (p d : pt) : Prop :=
  ~ pteq 2 d (fun _ => 0) /\ forall c, In c l -> ~ on_ray p d (co c).

(** n elements of the list have the property. *)
Inductive counts {A} (P : A -> Prop) : list A -> nat -> Prop :=
| counts_nil : counts P [] 0
| counts_yes x l n : P x -> counts P l n -> counts P (x :: l) (S n)
| counts_no x l n : ~ P x -> counts P l n -> counts P (x :: l) n.

(** The answer is that of the even-odd rule: whatever ray is drawn from p through no corner, the number of
    sides it meets is odd exactly when the answer is yes. *)
Definition even_odd (l : list (coords R)) (p : pt) (answer : bool) : Prop :=
  forall d n, clear_ray l p d -> counts (meets_ray p d) (sides l) n -> answer = Nat.odd n.

(** Boundary points at the height of p are farther from it than the tolerance. *)
Definition clear_of (eps : R) (l : list (coords R)) (p : pt) : Prop :=
  forall x, on_boundary l x -> x 1%nat = p 1%nat -> 2 * eps * Rmax 1 (Rabs (p 0%nat)) < Rabs (p 0%nat - x 0%nat).
