(** What a sequence of random choices for shuffling is. *)
From Coq Require Import List Arith.
Import ListNotations.

(** [below p l]: l has p entries, the first at most p, the next at most p-1, ... *)
Fixpoint below (p : nat) (l : list nat) : Prop :=
  match p, l with
  | O, [] => True
  | S q, c :: cs => c <= p /\ below q cs
  | _, _ => False
  end.

(** Choice sequences for a vector of [n] elements: there are n! of them. *)
Definition valid_choices (n : nat) (l : list nat) : Prop := below (n - 1) l.
