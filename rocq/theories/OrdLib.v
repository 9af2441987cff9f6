(** What the comparison-only theorems need from a number type, and the proof that
    the reals and the non-NaN doubles provide it. *)
From Coq Require Import ZArith Reals Bool SpecFloat Lia Lra.
From Flocq Require Import Core.Raux.
From Verif Require Import Scalar RLib.

(** [num_ok x]: x is comparable (not a NaN).  [<=] is a total preorder on such
    numbers and [<] is its strict part. *)
Class OrdNum (T : Type) `{Num T} := {
  num_ok : T -> Prop;
  leb_refl : forall x, num_ok x -> nleb x x = true;
  leb_trans : forall x y z, num_ok x -> num_ok y -> num_ok z ->
    nleb x y = true -> nleb y z = true -> nleb x z = true;
  leb_total : forall x y, num_ok x -> num_ok y -> nleb x y = true \/ nleb y x = true;
  ltb_negb : forall x y, num_ok x -> num_ok y -> nltb x y = negb (nleb y x)
}.

#[export] Instance Rord eps : @OrdNum R (Rnum eps).
Proof.
  refine (@Build_OrdNum R (Rnum eps) (fun _ => True) _ _ _ _); cbn [nleb nltb Rnum].
  - intros x _. apply Rleb_iff; lra.
  - intros x y z _ _ _. rewrite !Rleb_iff. lra.
  - intros x y _ _. rewrite !Rleb_iff. lra.
  - intros x y _ _. destruct (Rlt_bool_spec x y); destruct (Rle_bool_spec y x); simpl; auto; lra.
Defined.

(** NaN is the only double that is not comparable. *)
Definition not_nan (x : spec_float) : Prop := x <> S754_nan.

Lemma SFcompare_swap a b : SFcompare b a = option_map CompOpp (SFcompare a b).
Proof.
  destruct a as [[]|[]| |[] m e], b as [[]|[]| |[] m' e']; simpl; auto;
    rewrite (Z.compare_antisym e e'); destruct (e ?= e')%Z; simpl; auto;
    f_equal; rewrite Pos.compare_cont_antisym; simpl; rewrite ?CompOpp_involutive; auto.
Qed.

Lemma SFcompare_some a b : not_nan a -> not_nan b -> SFcompare a b <> None.
Proof.
  unfold not_nan. destruct a as [[]|[]| |[] m e], b as [[]|[]| |[] m' e']; simpl; congruence.
Qed.

(** Position of a double on a line: sign class, exponent, mantissa. *)
Definition sf_key (x : spec_float) : Z * Z * Z :=
  match x with
  | S754_infinity true => (-2, 0, 0)
  | S754_finite true m e => (-1, - e, Zneg m)
  | S754_zero _ => (0, 0, 0)
  | S754_finite false m e => (1, e, Zpos m)
  | S754_infinity false => (2, 0, 0)
  | S754_nan => (0, 0, 0)
  end%Z.
Definition key_le (p q : Z * Z * Z) : Prop :=
  let '(a, b, c) := p in let '(a', b', c') := q in
  (a < a' \/ a = a' /\ (b < b' \/ b = b' /\ c <= c'))%Z.

Lemma SFleb_key a b : not_nan a -> not_nan b -> (SFleb a b = true <-> key_le (sf_key a) (sf_key b)).
Proof.
  unfold not_nan, SFleb.
  destruct a as [[]|[]| |[] m e], b as [[]|[]| |[] m' e']; simpl; try congruence; intros _ _;
    try (split; [intros; try discriminate; lia | intros; try reflexivity; exfalso; lia]).
  all: destruct (Z.compare_spec e e'); try subst;
    try (split; [intros; try discriminate; lia | intros; try reflexivity; exfalso; lia]).
  - rewrite <- Pos.compare_antisym. change (Pos.compare m' m) with (m' ?= m)%positive.
    destruct (Pos.compare_spec m' m); split; intros; try discriminate; try reflexivity; lia.
  - change (Pos.compare_cont Eq m m') with (m ?= m')%positive.
    destruct (Pos.compare_spec m m'); split; intros; try discriminate; try reflexivity; lia.
Qed.

#[export] Instance b64ord m : @OrdNum spec_float (B64 m).
Proof.
  refine (@Build_OrdNum spec_float (B64 m) not_nan _ _ _ _); cbn [nleb nltb B64].
  - intros x Hx. apply SFleb_key; auto. destruct (sf_key x) as [[a b] c]; simpl; lia.
  - intros x y z Hx Hy Hz. rewrite !SFleb_key by auto.
    destruct (sf_key x) as [[a b] c], (sf_key y) as [[a' b'] c'], (sf_key z) as [[a'' b''] c'']; simpl; lia.
  - intros x y Hx Hy. rewrite !SFleb_key by auto.
    destruct (sf_key x) as [[a b] c], (sf_key y) as [[a' b'] c']; simpl; lia.
  - intros x y Hx Hy. unfold SFltb, SFleb. rewrite (SFcompare_swap x y).
    pose proof (SFcompare_some x y Hx Hy). destruct (SFcompare x y) as [[]|]; simpl; auto; congruence.
Defined.

Section Derived.
Context {T} `{OrdNum T}.

Lemma ltb_iff x y : num_ok x -> num_ok y -> (nltb x y = true <-> nleb y x = false).
Proof. intros. rewrite ltb_negb by auto. destruct (nleb y x); simpl; split; congruence. Qed.
Lemma ltb_false x y : num_ok x -> num_ok y -> (nltb x y = false <-> nleb y x = true).
Proof. intros. rewrite ltb_negb by auto. destruct (nleb y x); simpl; split; congruence. Qed.
Lemma ltb_leb x y : num_ok x -> num_ok y -> nltb x y = true -> nleb x y = true.
Proof. intros Hx Hy E. apply ltb_iff in E; auto. destruct (leb_total x y Hx Hy); congruence. Qed.
Lemma leb_false_leb x y : num_ok x -> num_ok y -> nleb x y = false -> nleb y x = true.
Proof. intros Hx Hy E. destruct (leb_total x y Hx Hy); congruence. Qed.
Lemma lt_le_trans x y z : num_ok x -> num_ok y -> num_ok z ->
  nltb x y = true -> nleb y z = true -> nltb x z = true.
Proof.
  intros Hx Hy Hz A B. apply ltb_iff; auto. apply ltb_iff in A; auto.
  destruct (nleb z x) eqn:E; auto. rewrite (leb_trans y z x) in A; auto.
Qed.
Lemma le_lt_trans x y z : num_ok x -> num_ok y -> num_ok z ->
  nleb x y = true -> nltb y z = true -> nltb x z = true.
Proof.
  intros Hx Hy Hz A B. apply ltb_iff; auto. apply ltb_iff in B; auto.
  destruct (nleb z x) eqn:E; auto. rewrite (leb_trans z x y) in B; auto.
Qed.
Lemma ltb_irrefl x : num_ok x -> nltb x x = false.
Proof. intros. apply ltb_false; auto. apply leb_refl; auto. Qed.
End Derived.
