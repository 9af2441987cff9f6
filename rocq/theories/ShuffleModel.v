(** Model of src/wfmath/shuffle.h. *)
From Coq Require Import List ZArith NArith Bool Arith.
From Verif Require Import Base MTModel.
Import ListNotations.
Open Scope nat_scope.

(** shuffle.h 56-58: exchange two elements through a temporary. *)
Definition swap_at {C} (v : list C) (i j : nat) : outcome (list C) :=
  do tmp <- oget v i;
  do b <- oget v j;
  do v1 <- oset v i b;
  oset v1 j tmp.

(** shuffle.h 51-59: the loop, with [pos] before the pre-decrement equal to
    [S pos].  The random indices are read from a list; [Undef] if it is too short. *)
Fixpoint shuffle_from {C} (pos : nat) (choices : list nat) (v : list C) : outcome (list C) :=
  match pos with
  | O => Ret v
  | S p =>
      match choices with
      | [] => Undef
      | c :: cs =>
          if Nat.eqb c pos then shuffle_from p cs v
          else do v' <- swap_at v pos c; shuffle_from p cs v'
      end
  end.

(** shuffle.h 39-62 with explicit random choices. *)
Definition shuffle {C} (v : list C) (choices : list nat) : outcome (list C) :=
  match length v with
  | O => Ret v
  | S n => shuffle_from n choices v
  end.

(** The same loop drawing from the generator: randInt takes a uint32, so [pos] is
    truncated to 32 bits (shuffle.h 52).  [Ret None]: a randInt loop ran out of fuel. *)
Fixpoint shuffle_mt_from {C} (fuel pos : nat) (g : mtrand) (v : list C) : outcome (option (list C * mtrand)) :=
  match pos with
  | O => Ret (Some (v, g))
  | S p =>
      do r <- rand_int_below fuel (w32 (N.of_nat pos)) g;
      match r with
      | None => Ret None
      | Some (i, g') =>
          if Nat.eqb (N.to_nat i) pos then shuffle_mt_from fuel p g' v
          else do v' <- swap_at v pos (N.to_nat i); shuffle_mt_from fuel p g' v'
      end
  end.
(** shuffle.h 33-62 *)
Definition shuffle_mt {C} (fuel : nat) (g : mtrand) (v : list C) : outcome (option (list C * mtrand)) :=
  match length v with
  | O => Ret (Some (v, g))
  | S n => shuffle_mt_from fuel n g v
  end.
