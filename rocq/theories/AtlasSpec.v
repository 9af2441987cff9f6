(** Specification vocabulary for Atlas messages. *)
From Coq Require Import ZArith NArith Bool String List.
From Verif Require Import Base Scalar VecModel ShapeModel PolyModel AtlasModel.
Import ListNotations.

Section Spec.
Context {T} `{Num T}.
(** The element e is the number x. *)
Definition number (e : element T) (x : T) : Prop := e = EFloat x \/ exists z, e = EInt z /\ x = nofZ z.
(** The message is the list of the numbers xs. *)
Definition number_list (a : element T) (xs : list T) : Prop := exists l, a = EList l /\ Forall2 number l xs.
(** A corner: a list that starts with the coordinates of the point, all of them finite. *)
Definition corner (dim : nat) (e : element T) (p : point T) : Prop :=
  valid p = true /\ length (el p) = dim /\ forallb finite (el p) = true /\ exists l r, e = EList (l ++ r) /\ Forall2 number l (el p).
(** The corners among the elements of a list, in their order; the other elements are passed over. *)
Inductive corners_in (dim : nat) : list (element T) -> list (point T) -> Prop :=
| ci_nil : corners_in dim [] []
| ci_take : forall e p l ps, corner dim e p -> corners_in dim l ps -> corners_in dim (e :: l) (p :: ps)
| ci_skip : forall e l ps, (forall p, ~ corner dim e p) -> corners_in dim l ps -> corners_in dim (e :: l) ps.
(** The list of corners of a message: under "points", or the message itself. *)
Definition points_of (a : element T) (l : list (element T)) : Prop :=
  a = EList l \/ exists m1 m2, a = EMap (m1 ++ ("points"%string, EList l) :: m2) /\ forall k e, In (k, e) m1 -> k <> "points"%string.

Definition all_finite (p : point T) : Prop := forall x, In x (el p) -> finite x = true.
Definition ok_coords (dim : nat) (p : point T) : Prop := length (el p) = dim /\ valid p = true /\ all_finite p.
(** The call returns or throws: no element is read out of bounds. *)
Definition safe {A} (x : outcome A) : Prop := match x with Ret _ | Throws => True | Undef | AssertFail => False end.
End Spec.
