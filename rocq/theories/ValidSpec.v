(** Specification of C14: expressions over vectors, points, matrices and quaternions of
    any scalar type, and the validity of their leaves. *)
From Coq Require Import List Bool ZArith NArith.
From Verif Require Import Base Scalar ConstModel VecModel RotModel QuatModel.
Import ListNotations.

Section V.
Context {T} `{Num T}.
Variable dim : nat.

Inductive mx : Type :=
| MLeaf (m : rotmatrix T)
| MxProd (a b : mx) | MxProdInv (a b : mx) | MxInvProd (a b : mx) | MxInvProdInv (a b : mx)
| MxInverse (a : mx) | MxNormalize (a : mx) | MxRotateQ (a : mx) (q : qx)
with qx : Type :=
| QLeaf (q : quat T)
| QxMul (a b : qx) | QxDiv (a b : qx) | QxInverse (a : qx) | QxNormalize (a : qx)
| QxOfMatrix (m : mx) | QxRotate (q : qx) (m : mx).

(** Points and vectors have the same representation. *)
Inductive vx : Type :=
| VLeaf (v : coords T)
| VAdd (a b : vx) | VSub (a b : vx) | VNeg (a : vx)
| VScale (a : vx) (k : T) | VDiv (a : vx) (k : T) | VNormalize (a : vx) (k : T)
| VCross (a b : vx)
| VMidpoint (a b : vx) (k : T)
| VOfPoint (a : vx)
| VMirrorAxis (a : vx) (i : nat) | VMirrorVec (a v : vx) | VMirrorAll (a : vx)
| VRotateAxes (a : vx) (i j : nat) (theta : T) | VRotateAxis (a axis : vx) (theta : T)
| VRotate (a : vx) (m : mx) | VProd (m : mx) (a : vx)
| VRotateQ (a : vx) (q : qx)
| VRotatePoint (a : vx) (m : mx) (p : vx) | VToParent (a o : vx) (m : mx) | VToLocal (a o : vx) (m : mx)
| VRotatePointQ (a : vx) (q : qx) (p : vx) | VToParentQ (a o : vx) (q : qx) | VToLocalQ (a o : vx) (q : qx)
| VRow (m : mx) (i : nat) | VColumn (m : mx) (i : nat).

Fixpoint mev (e : mx) : outcome (rotmatrix T) :=
  match e with
  | MLeaf m => Ret m
  | MxProd a b => do x <- mev a; do y <- mev b; prod dim x y
  | MxProdInv a b => do x <- mev a; do y <- mev b; prod_inv dim x y
  | MxInvProd a b => do x <- mev a; do y <- mev b; inv_prod dim x y
  | MxInvProdInv a b => do x <- mev a; do y <- mev b; inv_prod_inv dim x y
  | MxInverse a => do x <- mev a; Ret (rot_inverse dim x)
  | MxNormalize a => do x <- mev a; rot_normalize dim x
  | MxRotateQ a q => do x <- mev a; do y <- qev q; rot_rotate_q x y
  end
with qev (e : qx) : outcome (quat T) :=
  match e with
  | QLeaf q => Ret q
  | QxMul a b => do x <- qev a; do y <- qev b; Ret (quat_mul x y)
  | QxDiv a b => do x <- qev a; do y <- qev b; Ret (quat_div x y)
  | QxInverse a => do x <- qev a; Ret (quat_inverse x)
  | QxNormalize a => do x <- qev a; Ret (quat_normalize x)
  | QxOfMatrix m => do x <- mev m; do r <- quat_from_matrix x; Ret (fst r)
  | QxRotate q m => do x <- qev q; do y <- mev m; quat_rotate_m x y
  end.

Fixpoint vev (e : vx) : outcome (coords T) :=
  match e with
  | VLeaf v => Ret v
  | VAdd a b => do x <- vev a; do y <- vev b; Ret (vec_add dim x y)
  | VSub a b => do x <- vev a; do y <- vev b; Ret (vec_sub dim x y)
  | VNeg a => do x <- vev a; Ret (vec_neg dim x)
  | VScale a k => do x <- vev a; Ret (vec_scale dim x k)
  | VDiv a k => do x <- vev a; Ret (vec_div dim x k)
  | VNormalize a k => do x <- vev a; Ret (normalize dim x k)
  | VCross a b => do x <- vev a; do y <- vev b; Ret (cross3 x y)
  | VMidpoint a b k => do x <- vev a; do y <- vev b; Ret (midpoint dim x y k)
  | VOfPoint a => do x <- vev a; Ret (vec_of_point dim x)
  | VMirrorAxis a i => do x <- vev a; mirror_axis dim x i
  | VMirrorVec a v => do x <- vev a; do y <- vev v; Ret (mirror_vec dim x y)
  | VMirrorAll a => do x <- vev a; Ret (mirror_all dim x)
  | VRotateAxes a i j t => do x <- vev a; vec_rotate_axes dim x i j t
  | VRotateAxis a b t => do x <- vev a; do y <- vev b; vec_rotate_axis x y t
  | VRotate a m => do x <- vev a; do y <- mev m; Ret (vec_rotate dim x y)
  | VProd m a => do y <- mev m; do x <- vev a; Ret (prod_mv dim y x)
  | VRotateQ a q => do x <- vev a; do y <- qev q; Ret (vec_rotate_q x y)
  | VRotatePoint a m p => do x <- vev a; do y <- mev m; do z <- vev p; Ret (point_rotate dim x y z)
  | VToParent a o m => do x <- vev a; do z <- vev o; do y <- mev m; Ret (point_to_parent dim x z y)
  | VToLocal a o m => do x <- vev a; do z <- vev o; do y <- mev m; Ret (point_to_local dim x z y)
  | VRotatePointQ a q p => do x <- vev a; do y <- qev q; do z <- vev p; Ret (point_rotate_q x y z)
  | VToParentQ a o q => do x <- vev a; do z <- vev o; do y <- qev q; Ret (point_to_parent_q x z y)
  | VToLocalQ a o q => do x <- vev a; do z <- vev o; do y <- qev q; Ret (point_to_local_q x z y)
  | VRow m i => do y <- mev m; Ret (rot_row dim y i)
  | VColumn m i => do y <- mev m; Ret (rot_column dim y i)
  end.

(** All operands are valid. *)
Fixpoint mok (e : mx) : bool :=
  match e with
  | MLeaf m => mvalid m
  | MxProd a b | MxProdInv a b | MxInvProd a b | MxInvProdInv a b => mok a && mok b
  | MxInverse a | MxNormalize a => mok a
  | MxRotateQ a q => mok a && qok q
  end
with qok (e : qx) : bool :=
  match e with
  | QLeaf q => qvalid q
  | QxMul a b | QxDiv a b => qok a && qok b
  | QxInverse a | QxNormalize a => qok a
  | QxOfMatrix m => mok m
  | QxRotate q m => qok q && mok m
  end.

Fixpoint vok (e : vx) : bool :=
  match e with
  | VLeaf v => valid v
  | VAdd a b | VSub a b | VCross a b | VMidpoint a b _ | VMirrorVec a b | VRotateAxis a b _ => vok a && vok b
  | VNeg a | VScale a _ | VDiv a _ | VNormalize a _ | VOfPoint a | VMirrorAxis a _ | VMirrorAll a | VRotateAxes a _ _ _ => vok a
  | VRotate a m | VProd m a => vok a && mok m
  | VRotateQ a q => vok a && qok q
  | VRotatePoint a m p | VToParent a p m | VToLocal a p m => vok a && mok m && vok p
  | VRotatePointQ a q p | VToParentQ a p q | VToLocalQ a p q => vok a && qok q && vok p
  | VRow m _ | VColumn m _ => mok m
  end.

(** Every quaternion operand has a vector part with the same flag: true of identity(),
    Quaternion(w,x,y,z), rotation(axis, angle) and default construction; not of a valid
    quaternion on which a rotation function has failed. *)
Fixpoint mcons (e : mx) : Prop :=
  match e with
  | MLeaf _ => True
  | MxProd a b | MxProdInv a b | MxInvProd a b | MxInvProdInv a b => mcons a /\ mcons b
  | MxInverse a | MxNormalize a => mcons a
  | MxRotateQ a q => mcons a /\ qcons q
  end
with qcons (e : qx) : Prop :=
  match e with
  | QLeaf q => valid (qv q) = qvalid q
  | QxMul a b | QxDiv a b => qcons a /\ qcons b
  | QxInverse a | QxNormalize a => qcons a
  | QxOfMatrix m => mcons m
  | QxRotate q m => qcons q /\ mcons m
  end.
Fixpoint vcons (e : vx) : Prop :=
  match e with
  | VLeaf _ => True
  | VAdd a b | VSub a b | VCross a b | VMidpoint a b _ | VMirrorVec a b | VRotateAxis a b _ => vcons a /\ vcons b
  | VNeg a | VScale a _ | VDiv a _ | VNormalize a _ | VOfPoint a | VMirrorAxis a _ | VMirrorAll a | VRotateAxes a _ _ _ => vcons a
  | VRotate a m | VProd m a => vcons a /\ mcons m
  | VRotateQ a q => vcons a /\ qcons q
  | VRotatePoint a m p | VToParent a p m | VToLocal a p m => vcons a /\ mcons m /\ vcons p
  | VRotatePointQ a q p | VToParentQ a p q | VToLocalQ a p q => vcons a /\ qcons q /\ vcons p
  | VRow m _ | VColumn m _ => mcons m
  end.

End V.

Scheme mx_mut := Induction for mx Sort Prop
  with qx_mut := Induction for qx Sort Prop.
