(** What Eigen's .inverse() does to a matrix whose size is not known at compile time (all innovation covariances
    are Eigen::MatrixXd), in double arithmetic (IEEE binary64, to nearest even), whatever the order of the
    additions and with or without fused multiply-add ([MatFloat.sums]): LU/InverseImpl.h, compute_inverse for
    dynamic sizes, is partialPivLu().inverse(), i.e. the solution of (P S) X = P I by two triangular systems. *)
From Coq Require Import ZArith Reals Lra Lia Bool List.
From Flocq Require Import Core IEEE754.BinarySingleNaN.
From Verif Require Import Outcome FB_Model FloatTime AngleFloat KF_Float MatFloat UKFFloat LltFloat.
Import ListNotations.
Open Scope R_scope.

Definition fabs64 : f64 -> f64 := Babs.
(** rows i of P are rows pi i of the identity, pi a permutation of 0 .. n-1 *)
Definition permutes (n : nat) (pi : nat -> nat) : Prop :=
  (forall i, (i < n)%nat -> (pi i < n)%nat) /\ forall i j, (i < n)%nat -> (j < n)%nat -> pi i = pi j -> i = j.
(** Eigen/src/LU/PartialPivLU.h, partial_lu_impl: entry (i, j) after k steps of elimination, as many terms as come before
    the column j or the row i *)
Definition lu64_rest (S L U : fmat) (pi : nat -> nat) (k i j : nat) (y : f64) : Prop :=
  sums ((fone, S (pi i) j) :: pairs k (fun l => fopp64 (L i l)) (fun l => U l j)) y.
(** unblocked_lu: the pivot of column k has the largest absolute value; if it is not 0 the column below is divided by it *)
Definition lu64 (n : nat) (S L U : fmat) (pi : nat -> nat) : Prop :=
  permutes n pi /\
  (forall i j, (i <= j < n)%nat -> lu64_rest S L U pi i i j (U i j)) /\
  (forall i j, (j < i < n)%nat -> exists y, lu64_rest S L U pi j i j y /\ Bleb (fabs64 y) (fabs64 (U j j)) = true /\
     (if Beqb (U j j) fzero then L i j = y else quotient64 y (U j j) (L i j))).
(** PartialPivLU::_solve_impl with the identity on the right: the unit lower triangle, then the upper one
    (products/TriangularSolverMatrix.h multiplies by the inverse of the diagonal entry) *)
Definition forward64 (n : nat) (L : fmat) (pi : nat -> nat) (Y : fmat) : Prop := forall i c, (i < n)%nat -> (c < n)%nat ->
  sums ((fone, if Nat.eqb (pi i) c then fone else fzero) :: pairs i (fun l => fopp64 (L i l)) (fun l => Y l c)) (Y i c).
Definition backward64 (n : nat) (U Y X : fmat) : Prop := forall i c, (i < n)%nat -> (c < n)%nat ->
  exists y, sums ((fone, Y i c) :: pairs (n - S i) (fun l => fopp64 (U i (S i + l)%nat)) (fun l => X (S i + l)%nat c)) y /\ quotient64 y (U i i) (X i c).
(** kalman_filter.cpp:42, ekf.cpp:39, ukf.cpp:149, kalman_filter_vs.cpp:75, ekf_vs.cpp:61, ukf_vs.cpp:194: X = S.inverse() *)
Definition inverse64 (n : nat) (S X : fmat) : Prop := exists L U pi Y, lu64 n S L U pi /\ forward64 n L pi Y /\ backward64 n U Y X.
