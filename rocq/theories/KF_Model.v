(** The Kalman filters: KalmanFilter, EKF (src/filters/kalman_filter.cpp, ekf.cpp) and the
    variable-state versions KalmanFilterVS, EKFVS (kalman_filter_vs.cpp, ekf_vs.cpp).

    Vectors and matrices have entries in an arbitrary real field [R] (exact arithmetic: rounding is
    not modelled) and carry their sizes in the types: the dimension n of the state, m of the
    control, p of the process noise and k of a measurement are those the model objects were
    constructed with (system_model.cpp:6-16, measurement_model.cpp:6-12), and the assertions on
    sizes are discharged by typing.  [.inverse()] of a singular matrix is [Ub ub_singular].

    System and measurement models are objects of user-defined classes: an abstract type of object
    states with the virtual functions as operations.  Debug output is not modelled. *)
From mathcomp Require Import all_ssreflect all_algebra.
From Verif Require Import Outcome.
Set Implicit Arguments.
Unset Strict Implicit.
Unset Printing Implicit Defensive.
Import GRing.Theory.
Local Open Scope ring_scope.

Section Model.
Variable R : realFieldType.
Variable T : Type.   (* type of dt *)

(** ** Model interfaces *)
(** include/state_estimation/system_models/system_model.h and filter_model.h.  [sm_upd] is
    update(x, u, dt) (system_model.cpp:18-22, the virtual myUpdate); the accessors P, V, Rp, Rc
    (system_model.cpp:78-92); addVectors, subtractVectors, weightedSum (filter_model.cpp:87-106,
    virtual; the columns of X are given as a list); activeStates, activeControls
    (filter_model.cpp:33-35, system_model.cpp:31-33). *)
Record SysI (n m p : nat) : Type := {
  sm : Type;
  sm_upd : sm -> 'cV[R]_n -> 'cV[R]_m -> T -> outcome sm;
  sm_P : sm -> 'M[R]_(n, p);
  sm_V : sm -> 'M[R]_(n, m);
  sm_Rp : sm -> 'M[R]_p;
  sm_Rc : sm -> 'M[R]_m;
  sm_add : sm -> 'cV[R]_n -> 'cV[R]_n -> 'cV[R]_n;
  sm_sub : sm -> 'cV[R]_n -> 'cV[R]_n -> 'cV[R]_n;
  sm_wsum : sm -> seq R -> seq 'cV[R]_n -> 'cV[R]_n;
  sm_act : sm -> seq 'I_n;
  sm_actC : sm -> seq 'I_m
}.
(** linear_system_model.h / .cpp *)
Record LinSys n m p : Type := { ls_base :> SysI n m p; ls_A : sm ls_base -> 'M[R]_n; ls_B : sm ls_base -> 'M[R]_(n, m) }.
(** nonlinear_system_model.h / .cpp *)
Record NonlinSys n m p : Type := { ns_base :> SysI n m p; ns_g : sm ns_base -> 'cV[R]_n; ns_G : sm ns_base -> 'M[R]_n }.

(** include/state_estimation/measurement_models/measurement_model.h *)
Record MeasI (n k : nat) : Type := {
  mm : Type;
  mm_upd : mm -> 'cV[R]_n -> T -> outcome mm;
  mm_cov : mm -> 'M[R]_k;
  mm_sub : mm -> 'cV[R]_k -> 'cV[R]_k -> 'cV[R]_k;
  mm_wsum : mm -> seq R -> seq 'cV[R]_k -> 'cV[R]_k;
  mm_act : mm -> seq 'I_k
}.
(** linear_measurement_model.h / .cpp *)
Record LinMeas n k : Type := { lm_base :> MeasI n k; lm_C : mm lm_base -> 'M[R]_(k, n) }.
(** nonlinear_measurement_model.h / .cpp *)
Record NonlinMeas n k : Type := { nm_base :> MeasI n k; nm_h : mm nm_base -> 'cV[R]_k; nm_H : mm nm_base -> 'M[R]_(k, n) }.

(** filter_model.cpp:87-106, the default vector operations *)
Definition add_default n (a b : 'cV[R]_n) : 'cV[R]_n := a + b.
Definition sub_default n (a b : 'cV[R]_n) : 'cV[R]_n := a - b.
Definition wsum_default n (w : seq R) (X : seq 'cV[R]_n) : 'cV[R]_n :=
  foldl (fun acc wx => acc + wx.1 *: wx.2) 0 (zip w X).

(** .inverse(), Eigen *)
Definition inverse n (A : 'M[R]_n) : outcome 'M[R]_n :=
  if A \in unitmx then Ok (invmx A) else Ub ub_singular.

Section Fixed.
Variables n m p k : nat.

(** the noise part of the predicted covariance (kalman_filter.cpp:16-17, ekf.cpp:14-15) *)
Definition noise (S : SysI n m p) (o : sm S) : 'M[R]_n :=
  sm_P o *m sm_Rp o *m (sm_P o)^T + sm_V o *m sm_Rc o *m (sm_V o)^T.

(** kalman_filter.cpp:7-17, KalmanFilter::myPredict *)
Definition kf_predict (S : LinSys n m p) (o : sm S) (x : 'cV[R]_n) (P : 'M[R]_n) (u : 'cV[R]_m) (dt : T)
  : outcome (sm S * 'cV[R]_n * 'M[R]_n) :=
  let* o1 := sm_upd o x u dt in
  let Ax := ls_A o1 *m x in
  let Bu := ls_B o1 *m u in
  Ok (o1, sm_add o1 Ax Bu,
      ls_A o1 *m P *m (ls_A o1)^T + sm_P o1 *m sm_Rp o1 *m (sm_P o1)^T + sm_V o1 *m sm_Rc o1 *m (sm_V o1)^T).

(** kalman_filter.cpp:36-51, KalmanFilter::myCorrect; [o] is the system model object (for
    addVectors), [q] the measurement model object *)
Definition kf_correct (S : LinSys n m p) (M : LinMeas n k) (o : sm S) (q : mm M)
    (x : 'cV[R]_n) (P : 'M[R]_n) (z : 'cV[R]_k) (dt : T) : outcome (mm M * 'cV[R]_n * 'M[R]_n) :=
  let* q1 := mm_upd q x dt in
  let C := lm_C q1 in
  let cov_C_T := P *m C^T in
  let* inv := inverse (C *m cov_C_T + mm_cov q1) in
  let K := cov_C_T *m inv in
  let z_pred := C *m x in
  let dx := K *m mm_sub q1 z z_pred in
  Ok (q1, sm_add o x dx, (1%:M - K *m C) *m P).

(** ekf.cpp:7-15, EKF::myPredict *)
Definition ekf_predict (S : NonlinSys n m p) (o : sm S) (x : 'cV[R]_n) (P : 'M[R]_n) (u : 'cV[R]_m) (dt : T)
  : outcome (sm S * 'cV[R]_n * 'M[R]_n) :=
  let* o1 := sm_upd o x u dt in
  Ok (o1, ns_g o1,
      ns_G o1 *m P *m (ns_G o1)^T + sm_P o1 *m sm_Rp o1 *m (sm_P o1)^T + sm_V o1 *m sm_Rc o1 *m (sm_V o1)^T).

(** ekf.cpp:32-46, EKF::myCorrect *)
Definition ekf_correct (S : NonlinSys n m p) (M : NonlinMeas n k) (o : sm S) (q : mm M)
    (x : 'cV[R]_n) (P : 'M[R]_n) (z : 'cV[R]_k) (dt : T) : outcome (mm M * 'cV[R]_n * 'M[R]_n) :=
  let* q1 := mm_upd q x dt in
  let H := nm_H q1 in
  let cov_H_T := P *m H^T in
  let* inv := inverse (H *m cov_H_T + mm_cov q1) in
  let K := cov_H_T *m inv in
  let dx := K *m mm_sub q1 z (nm_h q1) in
  Ok (q1, sm_add o x dx, (1%:M - K *m H) *m P).
End Fixed.

(** ** Index lists: data_subset_utilities.cpp on matrices with sizes in the types (the functions
    themselves, with their loops and bounds checks, are modelled in Subset.v).  An empty list
    stands for all indices: then the C++ functions copy, which is what the loops do on the list
    of all indices. *)
Definition eff n (l : seq 'I_n) : seq 'I_n := if l is [::] then enum 'I_n else l.
Definition aix n (l : seq 'I_n) : 'I_(size (eff l)) -> 'I_n := fun i => tnth (in_tuple (eff l)) i.

(** getSubset on vectors, :6-17, and on matrices, :19-52 *)
Definition get1 n s (f : 'I_s -> 'I_n) (x : 'cV[R]_n) : 'cV[R]_s := \col_i x (f i) 0.
Definition get2 n n' s s' (f : 'I_s -> 'I_n) (g : 'I_s' -> 'I_n') (x : 'M[R]_(n, n')) : 'M[R]_(s, s') :=
  \matrix_(i, j) x (f i) (g j).
(** convertSubsetToFull on vectors, :54-63, and matrices, :65-94: assignments one by one, so the
    last one wins if an index is repeated *)
Definition put1 n s (f : 'I_s -> 'I_n) (y : 'cV[R]_s) (full : 'cV[R]_n) : 'cV[R]_n :=
  foldl (fun (v : 'cV[R]_n) i => \col_j (if j == f i then y i 0 else v j 0)) full (enum 'I_s).
Definition put2 n n' s s' (f : 'I_s -> 'I_n) (g : 'I_s' -> 'I_n') (y : 'M[R]_(s, s')) (full : 'M[R]_(n, n')) : 'M[R]_(n, n') :=
  foldl (fun (v : 'M[R]_(n, n')) i => foldl (fun (v : 'M[R]_(n, n')) j => \matrix_(a, b) (if (a == f i) && (b == g j) then y i j else v a b)) v (enum 'I_s')) full (enum 'I_s).
(** convertSubsetToFullZeroed on vectors, :96-108 *)
Definition zput1 n s (f : 'I_s -> 'I_n) (y : 'cV[R]_s) : 'cV[R]_n := put1 f y 0.

Section Variable_state.
Variables n m p k : nat.

(** kalman_filter_vs.cpp:8-40, KalmanFilterVS::myPredict, with f = activeStates(),
    fc = activeControls() after the update *)
Definition kfvs_predict_with s c (f : 'I_s -> 'I_n) (fc : 'I_c -> 'I_m) (S : LinSys n m p) (o1 : sm S)
    (x : 'cV[R]_n) (P : 'M[R]_n) (u : 'cV[R]_m) : 'cV[R]_n * 'M[R]_n :=
  let x_s := get1 f x in
  let u_s := get1 fc u in
  let cov_s := get2 f f P in
  let A_s := get2 f f (ls_A o1) in
  let B_s := get2 f fc (ls_B o1) in
  let Rc_s := get2 fc fc (sm_Rc o1) in
  let P_s := get2 f id (sm_P o1) in
  let V_s := get2 f fc (sm_V o1) in
  let Ax_full := zput1 f (A_s *m x_s) in
  let Bu_full := zput1 f (B_s *m u_s) in
  let cov' := A_s *m cov_s *m A_s^T + P_s *m sm_Rp o1 *m P_s^T + V_s *m Rc_s *m V_s^T in
  (sm_add o1 Ax_full Bu_full, put2 f f cov' P).
Definition kfvs_predict (S : LinSys n m p) (o : sm S) (x : 'cV[R]_n) (P : 'M[R]_n) (u : 'cV[R]_m) (dt : T)
  : outcome (sm S * 'cV[R]_n * 'M[R]_n) :=
  let* o1 := sm_upd o x u dt in
  let r := kfvs_predict_with (@aix _ (sm_act o1)) (@aix _ (sm_actC o1)) o1 x P u in
  Ok (o1, r.1, r.2).

(** kalman_filter_vs.cpp:59-94, KalmanFilterVS::myCorrect, with f = activeStates(),
    fm = activeMeasurements() *)
Definition kfvs_correct_with s c (f : 'I_s -> 'I_n) (fm : 'I_c -> 'I_k) (S : LinSys n m p) (M : LinMeas n k)
    (o : sm S) (q1 : mm M) (x : 'cV[R]_n) (P : 'M[R]_n) (z : 'cV[R]_k) : outcome ('cV[R]_n * 'M[R]_n) :=
  let x_s := get1 f x in
  let cov_s := get2 f f P in
  let C_s := get2 fm f (lm_C q1) in
  let Q_s := get2 fm fm (mm_cov q1) in
  let cov_C_T := cov_s *m C_s^T in
  let* inv := inverse (C_s *m cov_C_T + Q_s) in
  let K := cov_C_T *m inv in
  let z'_full := zput1 fm (C_s *m x_s) in
  let dz_full := mm_sub q1 z z'_full in
  let dz_s := get1 fm dz_full in
  let dx_full := zput1 f (K *m dz_s) in
  let cov' := (1%:M - K *m C_s) *m cov_s in
  Ok (sm_add o x dx_full, put2 f f cov' P).
Definition kfvs_correct (S : LinSys n m p) (M : LinMeas n k) (o : sm S) (q : mm M)
    (x : 'cV[R]_n) (P : 'M[R]_n) (z : 'cV[R]_k) (dt : T) : outcome (mm M * 'cV[R]_n * 'M[R]_n) :=
  let* q1 := mm_upd q x dt in
  let* r := kfvs_correct_with (@aix _ (sm_act o)) (@aix _ (mm_act q1)) o q1 x P z in
  Ok (q1, r.1, r.2).

(** ekf_vs.cpp:8-30, EKFVS::myPredict *)
Definition ekfvs_cov_with s c (f : 'I_s -> 'I_n) (fc : 'I_c -> 'I_m) (S : NonlinSys n m p) (o1 : sm S)
    (P : 'M[R]_n) : 'M[R]_n :=
  let cov_s := get2 f f P in
  let G_s := get2 f f (ns_G o1) in
  let Rc_s := get2 fc fc (sm_Rc o1) in
  let P_s := get2 f id (sm_P o1) in
  let V_s := get2 f fc (sm_V o1) in
  let cov' := G_s *m cov_s *m G_s^T + P_s *m sm_Rp o1 *m P_s^T + V_s *m Rc_s *m V_s^T in
  put2 f f cov' P.
Definition ekfvs_predict (S : NonlinSys n m p) (o : sm S) (x : 'cV[R]_n) (P : 'M[R]_n) (u : 'cV[R]_m) (dt : T)
  : outcome (sm S * 'cV[R]_n * 'M[R]_n) :=
  let* o1 := sm_upd o x u dt in
  Ok (o1, ns_g o1, ekfvs_cov_with (@aix _ (sm_act o1)) (@aix _ (sm_actC o1)) o1 P).

(** ekf_vs.cpp:47-77, EKFVS::myCorrect *)
Definition ekfvs_correct_with s c (f : 'I_s -> 'I_n) (fm : 'I_c -> 'I_k) (S : NonlinSys n m p) (M : NonlinMeas n k)
    (o : sm S) (q1 : mm M) (x : 'cV[R]_n) (P : 'M[R]_n) (z : 'cV[R]_k) : outcome ('cV[R]_n * 'M[R]_n) :=
  let cov_s := get2 f f P in
  let H_s := get2 fm f (nm_H q1) in
  let Q_s := get2 fm fm (mm_cov q1) in
  let cov_H_T := cov_s *m H_s^T in
  let* inv := inverse (H_s *m cov_H_T + Q_s) in
  let K := cov_H_T *m inv in
  let dz_full := mm_sub q1 z (nm_h q1) in
  let dz_s := get1 fm dz_full in
  let dx_full := zput1 f (K *m dz_s) in
  let cov' := (1%:M - K *m H_s) *m cov_s in
  Ok (sm_add o x dx_full, put2 f f cov' P).
Definition ekfvs_correct (S : NonlinSys n m p) (M : NonlinMeas n k) (o : sm S) (q : mm M)
    (x : 'cV[R]_n) (P : 'M[R]_n) (z : 'cV[R]_k) (dt : T) : outcome (mm M * 'cV[R]_n * 'M[R]_n) :=
  let* q1 := mm_upd q x dt in
  let* r := ekfvs_correct_with (@aix _ (sm_act o)) (@aix _ (mm_act q1)) o q1 x P z in
  Ok (q1, r.1, r.2).
End Variable_state.
End Model.
