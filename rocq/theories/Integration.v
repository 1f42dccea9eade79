(** src/utilities/integration.cpp in exact arithmetic. *)
From Coq Require Import Reals Lra.
From Verif Require Import Geo.
Open Scope R_scope.

(** integration.cpp:6-16, deltaQuaternion; 1e-9 is 1 / 10^9 *)
Definition deltaQuaternion (dt : R) (w : V3) : Quat :=
  let w_norm := norm w in
  if Rlt_dec (1 / 1000000000) w_norm then
    let theta_half := 1 / 2 * dt * w_norm in
    let c := sin theta_half / w_norm in
    mkQ (cos theta_half) (c * vx w) (c * vy w) (c * vz w)
  else qid.
(** :18-20, integrate *)
Definition integrate (dt : R) (q : Quat) (w : V3) : Quat := qmul q (deltaQuaternion dt w).
(** :22-38, integrateVelocityRK4: returns the new value of *v *)
Definition integrateVelocityRK4 (dt : R) (a w v : V3) : V3 :=
  let q_mid := deltaQuaternion (1 / 2 * dt) w in
  let q_end := deltaQuaternion dt w in
  let k1_v := a in
  let k2_v := qrot q_mid a in
  let k3_v := k2_v in
  let k4_v := qrot q_end a in
  vadd v (vscale (/ 6) (vscale dt (vadd (vadd (vadd k1_v (vscale 2 k2_v)) (vscale 2 k3_v)) k4_v))).
(** :40-66, integratePositionRK4: returns the new values of *p and *v (v_i is a copy: the update of
    *v through the pointer does not change it) *)
Definition integratePositionRK4 (dt : R) (v_i a w p v : V3) : V3 * V3 :=
  let q_mid := deltaQuaternion (1 / 2 * dt) w in
  let q_end := deltaQuaternion dt w in
  let k1_v := a in
  let k2_v := qrot q_mid a in
  let k3_v := k2_v in
  let k4_v := qrot q_end a in
  let v' := vadd v (vscale (/ 6) (vscale dt (vadd (vadd (vadd k1_v (vscale 2 k2_v)) (vscale 2 k3_v)) k4_v))) in
  let k1_p := v_i in
  let k2_p := qrot q_mid (vadd v_i (vscale (1 / 2 * dt) k1_v)) in
  let k3_p := qrot q_mid (vadd v_i (vscale (1 / 2 * dt) k2_v)) in
  let k4_p := qrot q_end (vadd v_i (vscale dt k3_v)) in
  (vadd p (vscale (/ 6) (vscale dt (vadd (vadd (vadd k1_p (vscale 2 k2_p)) (vscale 2 k3_p)) k4_p))), v').
