(** The six_d_rates classes as system and measurement models of the filters of KF_Model.v and
    UKF_Model.v, over the real numbers: SixDRates (src/system_models/six_d_rates.cpp),
    SixDRatesImu and SixDRatesOdom (src/measurement_models/), each with the data members it has
    from its base classes (system_model.cpp:6-16, measurement_model.cpp:6-12,
    filter_model.cpp:7-13), as the program examples/six_d_rates_example.cpp uses them. *)
From Coq Require Import Reals.
From mathcomp Require Import all_ssreflect all_algebra.
From Verif Require Import Outcome FB_Model ActiveSets Geo SixD KF_Model FB_Alg KF_Filter RealField.
Set Implicit Arguments.
Unset Strict Implicit.
Unset Printing Implicit Defensive.
Import GRing.Theory.
Local Open Scope ring_scope.

(** a vector or matrix with its size in the type, and back *)
Definition to_vec n (v : vecn) : 'cV[R]_n := \col_(i < n) v i.
Definition of_vec n (x : 'cV[R]_n) : vecn := fun i => if insub i is Some j then x j 0 else 0%R.
Definition to_mat n k (m : matn) : 'M[R]_(n, k) := \matrix_(i < n, j < k) m i j.
(** a list of indices that are all in range (ActiveSets.v) *)
Definition to_idx n (l : list nat) : seq 'I_n := pmap insub l.

Section Classes.
Variable T : Type.        (* type of dt *)
Variable secs : T -> R.   (* its value *)

(** a SixDRates object: what six_d_rates.cpp reads and writes (SixD.v), R_p_, R_c_ (0 x 0: there is
    no control), and the two std::function members of FilterModel (filter_model.h:144-148; [None]
    is an empty function) *)
Record S6Obj : Type := mkS6Obj {
  so_m : SixDRates;
  so_Rp : 'M[R]_15;
  so_Rc : 'M[R]_0;
  so_is : option ('cV[R]_18 -> DV R_realFieldType -> bool);
  so_mk : option ('cV[R]_18 -> 'M[R]_18 -> 'cV[R]_18 * 'M[R]_18)
}.
(** six_d_rates.cpp:10-16 with system_model.cpp:6-16: covariances zero, no stationary functions *)
Definition s6_obj_new (compute_jacobian update_covariance : bool) : S6Obj :=
  mkS6Obj (s6_new compute_jacobian update_covariance) 0 0 None None.
(** system_model.cpp:18-22 *)
Definition s6_obj_upd (o : S6Obj) (x : 'cV[R]_18) (u : 'cV[R]_0) (dt : T) : outcome S6Obj :=
  Ok (mkS6Obj (s6_update (so_m o) (of_vec x) (secs dt)) (so_Rp o) (so_Rc o) (so_is o) (so_mk o)).
(** six_d_rates.cpp:109-111, 113-117 (19-21 of six_d_rates.cpp in definitions/ for the sum, whose
    sizes agree whenever UKF calls it; [0] is never used) *)
Definition s6_obj_wsum (w : seq R) (X : seq 'cV[R]_18) : 'cV[R]_18 :=
  match s6_weightedSumOfStates w [seq of_vec x | x <- X] with Ok v => to_vec 18 v | _ => 0 end.
Definition six_d_base : SysI R_realFieldType T 18 0 15 := {|
  sm := S6Obj;
  sm_upd := s6_obj_upd;
  sm_P := fun o => to_mat 18 15 (s6_P (so_m o));
  sm_V := fun _ => 0;
  sm_Rp := so_Rp;
  sm_Rc := so_Rc;
  sm_add := fun _ a b => to_vec 18 (s6_addState (of_vec a) (of_vec b));
  sm_sub := fun _ a b => to_vec 18 (s6_subtractState (of_vec a) (of_vec b));
  sm_wsum := fun _ => s6_obj_wsum;
  sm_act := fun o => to_idx 18 (a_active (s6_set (so_m o)));
  sm_actC := fun _ => [::]
|}.
(** nonlinear_system_model.cpp:15-21, g() and G() *)
Definition six_d_sys : NonlinSys R_realFieldType T 18 0 15 :=
  {| ns_base := six_d_base; ns_g := fun o : sm six_d_base => to_vec 18 (s6_g (so_m o)); ns_G := fun o : sm six_d_base => to_mat 18 18 (s6_G (so_m o)) |}.
(** filter_model.cpp:63-85 (checkStationary, isStationary, makeStationary), system_model.cpp:68-76,
    filter_model.h:84 (processStationaryInput does nothing) *)
Definition s6_setRc (o : S6Obj) (Rc : 'M[R]_0) : S6Obj := mkS6Obj (so_m o) (so_Rp o) Rc (so_is o) (so_mk o).
Definition s6_setRp (o : S6Obj) (Rp : 'M[R]_15) : S6Obj := mkS6Obj (so_m o) Rp (so_Rc o) (so_is o) (so_mk o).
Definition six_d_ops : SysOps six_d_sys := @Build_SysOps R_realFieldType T 18 0 15 six_d_sys
  s6_setRc
  (fun o : S6Obj => if so_is o is Some _ then true else false)
  (fun (o : S6Obj) x d => if so_is o is Some f then f x d else false)
  (fun (o : S6Obj) _ _ => o)
  (fun (o : S6Obj) x P => if so_mk o is Some f then f x P else (x, P)).

(** a SixDRatesImu (k = 6) or SixDRatesOdom (k = 4) object: tf_, tf_set_, H_ (SixD.v), z_pred_,
    cov_, the active measurements, the stationary functions *)
Record M6Obj k : Type := mkM6Obj {
  mo_m : Meas6;
  mo_z : vecn;
  mo_cov : 'M[R]_k;
  mo_set : ASet;
  mo_is : option ('cV[R]_18 -> 'cV[R]_k -> bool);
  mo_mk : option ('cV[R]_18 -> 'M[R]_18 -> 'cV[R]_18 * 'M[R]_18)
}.
Definition m6_base k (h : Meas6 -> vecn -> vecn) : MeasI R_realFieldType T 18 k := {|
  mm := M6Obj k;
  mm_upd := fun q x dt => Ok (mkM6Obj (mo_m q) (h (mo_m q) (of_vec x)) (mo_cov q) (mo_set q) (mo_is q) (mo_mk q));
  mm_cov := fun q => mo_cov q;
  mm_sub := fun _ => @sub_default R_realFieldType k;
  mm_wsum := fun _ => @wsum_default R_realFieldType k;
  mm_act := fun q => to_idx k (a_active (mo_set q))
|}.
Definition m6_class k (h : Meas6 -> vecn -> vecn) : NonlinMeas R_realFieldType T 18 k :=
  {| nm_base := m6_base k h; nm_h := fun q : mm (m6_base k h) => to_vec k (mo_z q); nm_H := fun q : mm (m6_base k h) => to_mat k 18 (m6_H (mo_m q)) |}.
Definition m6_ops k h : MeasOps (m6_class k h) := @Build_MeasOps R_realFieldType T 18 k (m6_class k h)
  (fun (q : M6Obj k) Q => mkM6Obj (mo_m q) (mo_z q) Q (mo_set q) (mo_is q) (mo_mk q))
  (fun q : M6Obj k => if mo_is q is Some _ then true else false)
  (fun (q : M6Obj k) x z => if mo_is q is Some f then f x z else false)
  (fun (q : M6Obj k) _ _ => q)
  (fun (q : M6Obj k) x P => if mo_mk q is Some f then f x P else (x, P)).
(** the family the example program uses: odometry objects have 4 entries, IMU objects 6 (no object
    of another size is ever made) *)
Definition six_d_h (k : nat) : Meas6 -> vecn -> vecn := if k is 4%nat then odom_h else imu_h.
Definition six_d_meas k : NonlinMeas R_realFieldType T 18 k := m6_class k (six_d_h k).
Definition six_d_mops k : MeasOps (six_d_meas k) := m6_ops k (six_d_h k).
Definition imu_obj (m : Meas6) : M6Obj 6 := mkM6Obj m (fun _ => 0%R) 0 (newASet 6) None None.
Definition odom_obj (m : Meas6) : M6Obj 4 := mkM6Obj m (fun _ => 0%R) 0 (newASet 4) None None.
End Classes.

Lemma of_to_vec n (v : vecn) i : (i < n)%N -> of_vec (to_vec n v) i = v i.
Proof. by move=> h; rewrite /of_vec insubT mxE. Qed.
Lemma to_of_vec n (x : 'cV[R]_n) : to_vec n (of_vec x) = x.
Proof. by apply/colP => i; rewrite mxE /of_vec valK. Qed.
