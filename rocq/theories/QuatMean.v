(** weightedQuaternion, include/state_estimation/utilities/angle_utilities.h:62-87, in exact arithmetic.
    Eigen::SelfAdjointEigenSolver is modelled by its contract (Spectral.v, [eigen_solver]): which
    orthonormal eigenvectors it returns is left open, so a call may return any of several quaternions. *)
From mathcomp Require Import all_ssreflect all_algebra.
From Verif Require Import LinAlg Spectral.
Import GRing.Theory Num.Theory Order.TTheory.
Set Implicit Arguments. Unset Strict Implicit. Unset Printing Implicit Defensive.
Local Open Scope ring_scope.

Section QuatMean.
Variable R : rcfType.
(** Eigen::Quaterniond(w, x, y, z) *)
Record mquat := MQuat { mq_w : R; mq_x : R; mq_y : R; mq_z : R }.
(** q.coeffs(): x, y, z, w *)
Definition coeffs (q : mquat) : 'cV[R]_4 := \col_i [:: mq_x q; mq_y q; mq_z q; mq_w q]`_i.
(** :74-78, the weighting matrix *)
Definition wq_matrix (w : seq R) (q_set : seq mquat) : 'M[R]_4 :=
  foldl (fun m wq => m + wq.1 *: (coeffs wq.2 *m (coeffs wq.2)^T)) 0 (zip w q_set).
Definition i0 : 'I_4 := inord 0.
Definition i1 : 'I_4 := inord 1.
Definition i2 : 'I_4 := inord 2.
Definition i3 : 'I_4 := inord 3.
(** :70-87: the call with weights w and quaternions q_set returns q *)
Definition weightedQuaternion_returns (w : seq R) (q_set : seq mquat) (q : mquat) : Prop :=
  size w = size q_set /\
  exists (V : 'M[R]_4) (d : 'rV[R]_4), eigen_solver (wq_matrix w q_set) V d /\
    let vec : 'cV[R]_4 := col i3 V in
    q = MQuat (vec i3 0) (vec i0 0) (vec i1 0) (vec i2 0).
End QuatMean.
