(** The six_d_rates state, system model and measurement models in exact arithmetic:
    include/state_estimation/definitions/six_d_rates.h, src/definitions/six_d_rates.cpp,
    src/system_models/six_d_rates.cpp, src/measurement_models/six_d_rates_imu.cpp and
    six_d_rates_odom.cpp, src/filters/filter_model.cpp:15-22. *)
From Coq Require Import Reals Lra List Bool Arith.
From Verif Require Import Outcome ActiveSets Geo Integration Transform.
Import ListNotations.
Open Scope R_scope.

(** a vector of 18 entries (entries from 18 on are never looked at); the indices of
    definitions/six_d_rates.h:13-46 *)
Definition vecn : Type := nat -> R.
Definition matn : Type := nat -> nat -> R.
Definition s6_DIMS : nat := 18.
Definition s6_VX : nat := 0.
Definition s6_AX : nat := 3.
Definition s6_VPHI : nat := 6.
Definition s6_GX : nat := 9.
Definition s6_BAX : nat := 12.
Definition s6_BWX : nat := 15.

(** x.segment(i, 3), and writing to it *)
Definition seg (x : vecn) (i : nat) : V3 := mkV (x i) (x (i + 1)%nat) (x (i + 2)%nat).
Definition put (x : vecn) (i : nat) (v : R) : vecn := fun j => if Nat.eqb j i then v else x j.
Definition put_seg (x : vecn) (i : nat) (v : V3) : vecn := put (put (put x i (vx v)) (i + 1) (vy v)) (i + 2) (vz v).
(** M(i, j) = v and M.block<3, 3>(r, c) = b *)
Definition mput (m : matn) (i j : nat) (v : R) : matn := fun a b => if Nat.eqb a i && Nat.eqb b j then v else m a b.
Definition mput_row (m : matn) (i j : nat) (v : V3) : matn := mput (mput (mput m i j (vx v)) i (j + 1) (vy v)) i (j + 2) (vz v).
Definition put_block (m : matn) (i j : nat) (b : M3) : matn :=
  mput_row (mput_row (mput_row m i j (r0 b)) (i + 1) j (r1 b)) (i + 2) j (r2 b).
(** the 3x3 block, and the product with a vector *)
Definition get_block (m : matn) (i j : nat) : M3 :=
  mkM (mkV (m i j) (m i (j + 1)%nat) (m i (j + 2)%nat))
      (mkV (m (i + 1)%nat j) (m (i + 1)%nat (j + 1)%nat) (m (i + 1)%nat (j + 2)%nat))
      (mkV (m (i + 2)%nat j) (m (i + 2)%nat (j + 1)%nat) (m (i + 2)%nat (j + 2)%nat)).

(** ** definitions/six_d_rates.cpp *)
Definition g_std : R := 98062 / 10000.
Definition renorm (x : vecn) : vecn := put_seg x s6_GX (vscale g_std (normalized (seg x s6_GX))).
(** :7-12, addState; [usage] is not used by the code *)
Definition s6_addState (lhs rhs : vecn) : vecn := renorm (fun i => lhs i + rhs i).
(** :14-19, subtractState *)
Definition s6_subtractState (lhs rhs : vecn) : vecn := renorm (fun i => lhs i - rhs i).
(** :21-34, weightedSumOfStates *)
Definition s6_weightedSumOfStates (w : list R) (X : list vecn) : outcome vecn :=
  if Nat.eqb (length w) (length X) then
    Ok (fold_left (fun (X_sum : vecn) (wx : R * vecn) => let delta := renorm (fun i => fst wx * snd wx i) in fun i => X_sum i + delta i)
          (combine w X) (fun _ => 0))
  else Ub ub_dim.

(** ** system_models/six_d_rates.cpp *)
Definition b2r (b : bool) : R := if b then 1 else 0.
(** :19-42, myUpdate: the new x_pred_; [usage] is stateUsage() *)
Definition s6_predict (usage : nat -> bool) (x : vecn) (dt : R) : vecn :=
  let g_i := seg x s6_GX in
  let w_i := seg x s6_VPHI in
  let q_delta := deltaQuaternion dt w_i in
  let dv := integrateVelocityRK4 dt (seg x s6_AX) (seg x s6_VPHI) vzero in
  let x1 := put x s6_VX (x s6_VX + b2r (usage s6_VX) * vx dv) in
  let x2 := put x1 (s6_VX + 1) (x1 (s6_VX + 1)%nat + b2r (usage (s6_VX + 1)%nat) * vy dv) in
  let x3 := put x2 (s6_VX + 2) (x2 (s6_VX + 2)%nat + b2r (usage (s6_VX + 2)%nat) * vz dv) in
  if usage s6_GX && usage (s6_GX + 1)%nat && usage (s6_GX + 2)%nat then put_seg x3 s6_GX (qrot q_delta g_i) else x3.
(** :44-64: the new G_ *)
Definition s6_jacobian (G : matn) (x : vecn) (dt : R) : matn :=
  let dt_sq := dt * dt in
  let g_i := seg x s6_GX in
  let w_i := seg x s6_VPHI in
  let q := deltaQuaternion dt w_i in
  let G1 := mput (mput (mput G s6_VX s6_AX dt) (s6_VX + 1) (s6_AX + 1) dt) (s6_VX + 2) (s6_AX + 2) dt in
  let G2 := put_block G1 s6_GX s6_VPHI
    (madd (mscale (- qw q * dt) (skew g_i))
          (mscale (1 / 2 * dt_sq) (msub (madd (mscale (dot w_i g_i) mid) (outer w_i g_i)) (outer g_i w_i)))) in
  put_block G2 s6_GX s6_GX
    (madd (madd (mscale (qw q * qw q + dot (qvec q) (qvec q)) mid) (outer (qvec q) (qvec q))) (mscale (2 * qw q) (skew (qvec q)))).
(** :66-106: the new P_ *)
Definition s6_noise_jacobian (P : matn) (x : vecn) (dt : R) : matn :=
  let dt_sq := dt * dt in
  let g_i := seg x s6_GX in
  let w_i := seg x s6_VPHI in
  let q := deltaQuaternion dt w_i in
  let diag3 := fun (P : matn) r c v => mput (mput (mput P r c v) (r + 1) (c + 1) v) (r + 2) (c + 2) v in
  let P := diag3 P s6_VX 0%nat (1 / 2 * dt_sq) in
  let P := diag3 P s6_VX 3%nat (1 / 2 * dt_sq) in
  let P := diag3 P s6_AX 0%nat dt in
  let P := diag3 P s6_AX 3%nat dt in
  let P := diag3 P s6_VPHI 6%nat dt in
  let P := diag3 P s6_VPHI 9%nat dt in
  put_block P s6_GX 12%nat
    (mscale (1 / 2 * (dt * dt))
      (msub (madd (mscale (- qw q) (skew g_i)) (mscale dt (madd (outer w_i g_i) (mscale (dot w_i g_i) mid))))
            (mscale (1 / 2 * dt) (outer w_i g_i)))).
(** the model object: what update() reads and writes.  :10-17, the constructor *)
Record SixDRates := mkS6 { s6_cj : bool; s6_uc : bool; s6_set : ASet; s6_g : vecn; s6_G : matn; s6_P : matn }.
Definition s6_new (compute_jacobian update_covariance : bool) : SixDRates :=
  mkS6 compute_jacobian update_covariance (newASet s6_DIMS) (fun _ => 0) (fun i j => if Nat.eqb i j then 1 else 0) (fun _ _ => 0).
(** stateUsage()[i], a uint8_t that is 0 or 1 (ActiveSets.v) *)
Definition usage_of (s : ASet) (i : nat) : bool := negb (Nat.eqb (nth i (a_usage s) 0%nat) 0).
(** :19-107, myUpdate *)
Definition s6_update (m : SixDRates) (x : vecn) (dt : R) : SixDRates :=
  mkS6 (s6_cj m) (s6_uc m) (s6_set m) (s6_predict (usage_of (s6_set m)) x dt)
       (if s6_cj m then s6_jacobian (s6_G m) x dt else s6_G m)
       (if s6_uc m then s6_noise_jacobian (s6_P m) x dt else s6_P m).
(** setActiveStates *)
Definition s6_setActiveStates (m : SixDRates) (l : list nat) : SixDRates :=
  mkS6 (s6_cj m) (s6_uc m) (setActive (s6_set m) l) (s6_g m) (s6_G m) (s6_P m).

(** ** measurement models *)
Record Meas6 := mkM6 { m6_cj : bool; m6_tf : Iso; m6_tf_set : bool; m6_H : matn }.
Definition v3_dec (a b : V3) : bool :=
  if Req_EM_T (vx a) (vx b) then if Req_EM_T (vy a) (vy b) then if Req_EM_T (vz a) (vz b) then true else false else false else false.
Definition is_identity (tf : Iso) : bool :=
  v3_dec (r0 (iR tf)) (r0 mid) && v3_dec (r1 (iR tf)) (r1 mid) && v3_dec (r2 (iR tf)) (r2 mid) && v3_dec (it tf) vzero.
(** filter_model.cpp:15-22, setTf, with the virtual postTfUpdate as an argument *)
Definition setTf (post : Meas6 -> Meas6) (m : Meas6) (tf : Iso) : Meas6 :=
  let m' := mkM6 (m6_cj m) tf (negb (is_identity tf)) (m6_H m) in
  if m6_tf_set m' then post m' else m'.

(** six_d_rates_imu.cpp:31-48, postTfUpdate *)
Definition imu_post (m : Meas6) : Meas6 :=
  if m6_cj m then
    let R := iR (m6_tf m) in
    let H := put_block (m6_H m) 0 s6_AX R in
    let H := put_block H 0 s6_BAX (mscale (-1) R) in
    let H := put_block H 0 s6_GX R in
    let H := put_block H 3 s6_VPHI R in
    let H := put_block H 3 s6_BWX (mscale (-1) R) in
    mkM6 (m6_cj m) (m6_tf m) (m6_tf_set m) H
  else m.
(** :10-16, constructor (nonlinear_measurement_model.cpp:6-10: H_ is zero; filter_model.cpp:7-13: identity, not set) *)
Definition imu_new (compute_jacobian : bool) : Meas6 := imu_post (mkM6 compute_jacobian iso_id false (fun _ _ => 0)).
(** :18-29, myUpdate: z_pred_ *)
Definition imu_h (m : Meas6) (x : vecn) : vecn :=
  let za := vadd (vsub (seg x s6_AX) (seg x s6_BAX)) (seg x s6_GX) in
  let zw := vsub (seg x s6_VPHI) (seg x s6_BWX) in
  let z := put_seg (put_seg (fun _ => 0) 0 za) 3 zw in
  if m6_tf_set m then
    let z := put_seg z 0 (mvec (iR (m6_tf m)) (seg z 0)) in
    put_seg z 3 (mvec (iR (m6_tf m)) (seg z 3))
  else z.

(** six_d_rates_odom.cpp:28-43, postTfUpdate *)
Definition odom_post (m : Meas6) : Meas6 :=
  if m6_cj m then
    let R := iR (m6_tf m) in
    let H := put_block (m6_H m) 0 s6_VX R in
    let H := put_block H 0 s6_VPHI (mmul (mscale (-1) (skew (it (m6_tf m)))) R) in
    let H := mput_row H 3 s6_VPHI (r2 R) in
    mkM6 (m6_cj m) (m6_tf m) (m6_tf_set m) H
  else m.
(** :12-17, constructor *)
Definition odom_new (compute_jacobian : bool) : Meas6 := odom_post (mkM6 compute_jacobian iso_id false (fun _ _ => 0)).
(** :19-26, myUpdate *)
Definition odom_h (m : Meas6) (x : vecn) : vecn :=
  let z := put_seg (fun _ => 0) 0 (transformLinearVelocity (seg x s6_VX) (seg x s6_VPHI) (m6_tf m)) in
  put z 3 (vz (transformAngularVelocity (seg x s6_VPHI) (iR (m6_tf m)))).
