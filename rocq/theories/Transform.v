(** src/utilities/transformation_utilities.cpp and src/utilities/imu_utilities.cpp in exact arithmetic. *)
From Coq Require Import Reals Lra.
From Verif Require Import Outcome Geo.
Open Scope R_scope.

(** transformation_utilities.cpp:5-8, transformLinearAcceleration *)
Definition transformLinearAcceleration (a w : V3) (tf : Iso) : V3 :=
  mvec (iR tf) (vadd a (cross w (cross w (it tf)))).
(** :10-13, transformLinearVelocity *)
Definition transformLinearVelocity (v w : V3) (tf : Iso) : V3 :=
  vadd (mvec (iR tf) v) (cross (mvec (iR tf) w) (it tf)).
(** :15-17, transformAngularVelocity *)
Definition transformAngularVelocity (w : V3) (R : M3) : V3 := mvec R w.
(** :19-21, transformCovariance *)
Definition transformCovariance (cov R : M3) : M3 := mmul (mmul R cov) (mtr R).
(** :23-39, orientationFromGravityVector.  The division by 2 q.w() with q.w() = 0 is an error here
    (in C++ it gives NaN or infinite components); 1e-9 is 1 / 10^9. *)
Definition orientationFromGravityVector (g0 : V3) : outcome Quat :=
  let g := normalized g0 in
  let g_norm_sq := norm2 g in
  if Rlt_dec (1 / 1000000000) g_norm_sq then
    let w := sqrt (1 / 2 * (- vz g + sqrt g_norm_sq)) in
    if Req_EM_T w 0 then Ub ub_singular
    else Ok (mkQ w (vy g / (2 * w)) (- vx g / (2 * w)) 0)
  else Ok qid.

(** imu_utilities.cpp:7-17, predictAccelMeasurement; [orientation] is [None] for the default argument
    Eigen::Quaterniond(), whose coefficients are not initialised (imu_utilities.h:22) *)
Definition predictAccelMeasurement (a w : V3) (tf : Iso) (include_gravity : bool) (orientation : option Quat) (g : R) : outcome V3 :=
  if include_gravity then
    match orientation with
    | Some q => Ok (transformLinearAcceleration (vadd a (qrot q (mkV 0 0 g))) w tf)
    | None => Ub ub_uninit
    end
  else Ok (transformLinearAcceleration a w tf).
(** the default value of g, imu_utilities.h:23 and :60 *)
Definition g_default : R := 980665 / 100000.
(** :19-22, predictGyroMeasurement *)
Definition predictGyroMeasurement (w : V3) (R : M3) : V3 := transformAngularVelocity w R.
(** :24-28, gyroMeasurementJacobian *)
Definition gyroMeasurementJacobian (R : M3) : M3 := R.
(** :30-83, accelMeasurementJacobian: the nine columns of H, first the three of block(0,0) by rows *)
Record AccelJac := mkAJ { aj_accel : M3; aj_phi : V3; aj_theta : V3; aj_psi : V3; aj_wx : V3; aj_wy : V3; aj_wz : V3 }.
Definition accelMeasurementJacobian (w : V3) (tf : Iso) (include_gravity : bool) (rpy : V3) (g : R) : AccelJac :=
  let R := iR tf in
  let t := it tf in
  let i := mkV 1 0 0 in
  let j := mkV 0 1 0 in
  let k := mkV 0 0 1 in
  let h6 := mvec R (vadd (cross i (cross w t)) (cross w (cross i t))) in
  let h7 := mvec R (vadd (cross j (cross w t)) (cross w (cross j t))) in
  let h8 := mvec R (vadd (cross k (cross w t)) (cross w (cross k t))) in
  if include_gravity then
    let sphi := sin (vx rpy) in
    let cphi := cos (vx rpy) in
    let stheta := sin (vy rpy) in
    let ctheta := cos (vy rpy) in
    let spsi := sin (vz rpy) in
    let cpsi := cos (vz rpy) in
    let dRs_dphi := mkV (- sphi * stheta * cpsi + cphi * spsi) (- sphi * stheta * spsi - cphi * cpsi) (- sphi * ctheta) in
    let dRs_dtheta := mkV (cphi * ctheta * cpsi) (cphi * ctheta * spsi) (- cphi * stheta) in
    let dRs_dpsi := mkV (- cphi * stheta * spsi + sphi * cpsi) (cphi * stheta * cpsi + sphi * spsi) 0 in
    mkAJ R (mvec (mscale g R) dRs_dphi) (mvec (mscale g R) dRs_dtheta) (mvec (mscale g R) dRs_dpsi) h6 h7 h8
  else mkAJ R vzero vzero vzero h6 h7 h8.
