(** What the Gamma function is: Gauss's limit of n! n^z / (z (z+1) ... (z+n)).  Used to state C59. *)
From Coq Require Import Reals.
From Coquelicot Require Import Coquelicot.
Open Scope R_scope.

(** z (z+1) ... (z+n) *)
Fixpoint rising (z : R) (n : nat) : R := match n with O => z | S k => rising z k * (z + INR n) end.
(** g is the value of the Gamma function at z *)
Definition is_Gamma (z g : R) : Prop := is_lim_seq (fun n => INR (fact n) * Rpower (INR n) z / rising z n) g.
