(** Outcomes of C++ operations.  Undefined behaviour, a failed [assert] and a
    thrown exception are distinct from a normal result. *)
From Coq Require Import List ZArith NArith Lia Bool.
Import ListNotations.

Inductive outcome (A : Type) : Type :=
| Ret (a : A)        (* normal return *)
| Undef              (* undefined behaviour: overflow, out of bounds, uninitialised read *)
| AssertFail         (* a failed assert() *)
| Throws.            (* a C++ exception *)
Arguments Ret {A} a.
Arguments Undef {A}.
Arguments AssertFail {A}.
Arguments Throws {A}.

Definition obind {A B} (x : outcome A) (f : A -> outcome B) : outcome B :=
  match x with
  | Ret a => f a
  | Undef => Undef
  | AssertFail => AssertFail
  | Throws => Throws
  end.

Declare Scope outcome_scope.
Delimit Scope outcome_scope with outcome.
Notation "'do' x <- e ; f" := (obind e (fun x => f))
  (at level 200, x name, e at level 100, f at level 200, only parsing) : outcome_scope.
Notation "'do' ' p <- e ; f" := (obind e (fun p => f))
  (at level 200, p pattern, e at level 100, f at level 200, only parsing) : outcome_scope.
Open Scope outcome_scope.

(** [assert(b)] (assertions enabled). *)
Definition oassert {A} (b : bool) (k : outcome A) : outcome A :=
  if b then k else AssertFail.

Lemma obind_ret {A B} (x : outcome A) (f : A -> outcome B) b :
  obind x f = Ret b -> exists a, x = Ret a /\ f a = Ret b.
Proof. destruct x; simpl; intros H; try discriminate; eauto. Qed.

Lemma oassert_ret {A} b (k : outcome A) a :
  oassert b k = Ret a -> b = true /\ k = Ret a.
Proof. destruct b; simpl; intros H; [auto|discriminate]. Qed.

(** Checked array access: [nth_error] as an outcome, out of bounds is [Undef]. *)
Definition oget {A} (l : list A) (i : nat) : outcome A :=
  match nth_error l i with Some a => Ret a | None => Undef end.

Fixpoint upd {A} (l : list A) (i : nat) (x : A) : list A :=
  match l, i with
  | [], _ => []
  | _ :: t, O => x :: t
  | h :: t, S j => h :: upd t j x
  end.

(** Checked array write. *)
Definition oset {A} (l : list A) (i : nat) (x : A) : outcome (list A) :=
  if Nat.ltb i (length l) then Ret (upd l i x) else Undef.

Lemma upd_length {A} (l : list A) i x : length (upd l i x) = length l.
Proof. revert i; induction l as [|h t IH]; intros [|i]; simpl; auto. Qed.

Lemma nth_upd_same {A} (l : list A) i x d : i < length l -> nth i (upd l i x) d = x.
Proof. revert i; induction l as [|h t IH]; intros [|i] H; simpl in *; try lia; auto. apply IH; lia. Qed.

Lemma nth_upd_other {A} (l : list A) i j x d : i <> j -> nth j (upd l i x) d = nth j l d.
Proof.
  revert i j; induction l as [|h t IH]; intros [|i] [|j] H; simpl; auto; try congruence.
Qed.

Lemma nth_error_upd_same {A} (l : list A) i x : i < length l -> nth_error (upd l i x) i = Some x.
Proof. revert i; induction l as [|h t IH]; intros [|i] H; simpl in *; try lia; auto. apply IH; lia. Qed.

Lemma nth_error_upd_other {A} (l : list A) i j x : i <> j -> nth_error (upd l i x) j = nth_error l j.
Proof.
  revert i j; induction l as [|h t IH]; intros [|i] [|j] H; simpl; auto; try congruence.
Qed.

Lemma upd_out {A} (l : list A) i x : length l <= i -> upd l i x = l.
Proof. revert i; induction l as [|h t IH]; intros [|i] H; simpl in *; auto; try lia. f_equal; apply IH; lia. Qed.

Lemma oget_ret {A} (l : list A) i d : i < length l -> oget l i = Ret (nth i l d).
Proof.
  intros H. unfold oget. destruct (nth_error l i) eqn:E.
  - rewrite (nth_error_nth l i d E). reflexivity.
  - apply nth_error_None in E; lia.
Qed.

Lemma oget_inv {A} (l : list A) i a : oget l i = Ret a -> i < length l /\ nth_error l i = Some a.
Proof.
  unfold oget. destruct (nth_error l i) eqn:E; intros H; inversion H; subst.
  split; auto. apply nth_error_Some; congruence.
Qed.

Lemma oset_ret {A} (l : list A) i x : i < length l -> oset l i x = Ret (upd l i x).
Proof. intros H; unfold oset. destruct (Nat.ltb_spec i (length l)); auto; lia. Qed.

(** Machine integers. *)
Open Scope Z_scope.
Definition LONG_MIN : Z := - 2 ^ 63.
Definition LONG_MAX : Z := 2 ^ 63 - 1.
Definition fits_long (z : Z) : bool := (LONG_MIN <=? z) && (z <=? LONG_MAX).
(** Result of a signed [long] operation: overflow is undefined. *)
Definition slong (z : Z) : outcome Z := if fits_long z then Ret z else Undef.
Close Scope Z_scope.
