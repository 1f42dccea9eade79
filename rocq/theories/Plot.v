(** src/utilities/plotting_utilities.cpp in exact arithmetic. *)
From Coq Require Import Reals Lra List ZArith.
From Verif Require Import Outcome Angles.
Import ListNotations.
Open Scope R_scope.

Record P2 := mkP { px : R; py : R }.
(** a 2x2 matrix by rows *)
Record M2 := mkM2 { m00 : R; m01 : R; m10 : R; m11 : R }.
(** Eigen::Rotation2D(angle) * p *)
Definition rot2 (angle : R) (p : P2) : P2 := mkP (cos angle * px p - sin angle * py p) (sin angle * px p + cos angle * py p).
Definition padd (p q : P2) : P2 := mkP (px p + px q) (py p + py q).
(** :13-18, one turn of the loop *)
Definition ellipse_point (a b : R) (offset : P2) (angle : R) (num_pts i : nat) : P2 :=
  let theta := INR i * 2 * PI / INR num_pts in
  let pos := mkP (a * cos theta) (b * sin theta) in
  padd (rot2 angle pos) offset.
(** :7-22, getEllipsePoints.  The loop variable is an int that is compared with a uint32_t: 2^31 points
    or more overflow it. *)
Definition getEllipsePoints (a b : R) (offset : P2) (angle : R) (num_pts : nat) : outcome (list P2) :=
  if (Z.of_nat num_pts <? 2 ^ 31)%Z then Ok (map (ellipse_point a b offset angle num_pts) (seq 0 num_pts)) else Ub ub_overflow.
(** Eigen::SelfAdjointEigenSolver on a 2x2 matrix (it reads the lower triangle): orthonormal eigenvectors
    as columns, eigenvalues in increasing order; which eigenvectors is left open *)
Definition solver2 (A V : M2) (l0 l1 : R) : Prop :=
  (m00 V * m00 V + m10 V * m10 V = 1 /\ m01 V * m01 V + m11 V * m11 V = 1 /\ m00 V * m01 V + m10 V * m11 V = 0) /\
  (m00 A = l0 * (m00 V * m00 V) + l1 * (m01 V * m01 V) /\
   m10 A = l0 * (m10 V * m00 V) + l1 * (m11 V * m01 V) /\
   m11 A = l0 * (m10 V * m10 V) + l1 * (m11 V * m11 V)) /\
  l0 <= l1.
(** :24-38, get2DCovarianceEllipsePoints: the call returns r *)
Definition get2DCovarianceEllipsePoints_returns (cov : M2) (offset : P2) (num_pts : nat) (r : outcome (list P2)) : Prop :=
  exists V values0 values1, solver2 cov V values0 values1 /\
    let a := values0 in
    let b := values1 in
    let angle := atan2 (m10 V) (m00 V) in
    r = getEllipsePoints a b offset angle num_pts.
