(** The variable-set filters KalmanFilterVS and EKFVS in double arithmetic: the code's sub-vector and
    sub-matrix functions ([Subset.v]) on doubles together with the matrix computations of [MatFloat.v].
    A step is a relation: it holds of every result the program can give, for whatever order Eigen adds in. *)
From Coq Require Import List Arith Bool Lia.
From Verif Require Import Outcome FB_Model FloatTime AngleFloat KF_Float MatFloat Subset.
Import ListNotations.

Definition fm : Type := mat f64.
Definition fv : Type := vec f64.
Definition rel (A : Type) : Type := outcome A -> Prop.
Definition det {A} (o : outcome A) : rel A := fun r => r = o.
Definition rbind {A B} (m : rel A) (f : A -> rel B) : rel B :=
  fun r => (exists c, m (Ub c) /\ r = Ub c) \/ (exists a, m (Ok a) /\ f a r).
Notation "'let%' x := m 'in' f" := (rbind m (fun x => f)) (at level 200, x name, right associativity).

Section VS.
(** contents of uninitialised memory, a bound on the length of loops, and what .inverse() may return for a
    matrix of a given size *)
Variable junk : nat -> nat -> f64.
Variable fuel : nat.
Variable inverts : nat -> fmat -> fmat -> Prop.

(** products and sums whose dimensions do not fit fail an assertion of Eigen *)
Definition check (b : bool) {A} (m : rel A) : rel A := if b then m else det (Ub ub_oob).
(** X * y *)
Definition mulv (X : fm) (y : fv) : rel fv := check (cols X =? vsize y) (fun r =>
  exists v, r = Ok v /\ vsize v = rows X /\ forall i, i < rows X -> sums (pairs (cols X) (at_ X i) (vat y)) (vat v i)).
(** X * Y and X * Y' *)
Definition mul (X Y : fm) : rel fm := check (cols X =? rows Y) (fun r =>
  exists M, r = Ok M /\ rows M = rows X /\ cols M = cols Y /\ product (rows X) (cols X) (cols Y) (at_ X) (at_ Y) (at_ M)).
Definition transp (Y : fm) : fm := mkMat (cols Y) (rows Y) (fun i j => at_ Y j i).
(** G cov G' + P Rp P' + V Rc V' *)
Definition cov_expr (G cov P Rp V Rc : fm) : rel fm :=
  check ((cols G =? rows cov) && (cols cov =? cols G) && (cols P =? rows Rp) && (cols Rp =? cols P) && (cols V =? rows Rc) && (cols Rc =? cols V)
         && (rows P =? rows G) && (rows V =? rows G)) (fun r =>
  exists M, r = Ok M /\ rows M = rows G /\ cols M = rows G /\ exists AP PR VR,
    product (rows G) (cols G) (cols cov) (at_ G) (at_ cov) AP /\ product (rows P) (cols P) (cols Rp) (at_ P) (at_ Rp) PR /\
    product (rows V) (cols V) (cols Rc) (at_ V) (at_ Rc) VR /\
    forall i j, i < rows G -> j < rows G -> sums (pairs (cols cov) (AP i) (at_ G j) ++ pairs (cols Rp) (PR i) (at_ P j) ++ pairs (cols Rc) (VR i) (at_ V j)) (at_ M i j)).
(** S = H * M + Q, then S.inverse() *)
Definition plus_inverse (H M Q : fm) : rel fm :=
  check ((cols H =? rows M) && (rows H =? rows Q) && (cols M =? cols Q) && (rows Q =? cols Q)) (fun r =>
  exists I, r = Ok I /\ rows I = rows Q /\ cols I = cols Q /\ exists S,
    (forall i j, i < rows Q -> j < cols Q -> sums ((fone, at_ Q i j) :: pairs (cols H) (at_ H i) (fun l => at_ M l j)) (S i j)) /\ inverts (rows Q) S (at_ I)).
(** (I - K * H) * cov *)
Definition joseph (K H cov : fm) : rel fm :=
  check ((cols K =? rows H) && (cols H =? rows cov) && (rows K =? rows cov)) (fun r =>
  exists M IKC, r = Ok M /\ rows M = rows K /\ cols M = cols cov /\
    (forall i j, i < rows K -> j < cols H -> sums ((fone, if Nat.eqb i j then fone else fzero) :: pairs (cols K) (fun l => fopp64 (at_ K i l)) (fun l => at_ H l j)) (IKC i j)) /\
    product (rows K) (cols H) (cols cov) IKC (at_ cov) (at_ M)).
(** the default addVectors and subtractVectors, filter_model.cpp:87-93 *)
Definition addv (x y : fv) : rel fv := check (vsize x =? vsize y) (det (Ok (mkVec (vsize x) (fun i => fadd64 (vat x i) (vat y i))))).
Definition subv (x y : fv) : rel fv := check (vsize x =? vsize y) (det (Ok (mkVec (vsize x) (fun i => fsub64 (vat x i) (vat y i))))).

(** what the models hold after update(): acts, actc, actz are activeStates(), activeControls(),
    activeMeasurements(); g and h are what the models predict (EKFVS) *)
(** kalman_filter_vs.cpp:12-41 *)
Definition kfvs_predict (acts actc : list nat) (stateSize : nat) (A B P V Rp Rc : fm) (x u : fv) (cov : fm) : rel (fv * fm) :=
  let% x_subset := det (getSubset f64 junk fuel x acts) in
  let% u_subset := det (getSubset f64 junk fuel u actc) in
  let% cov_subset := det (getSubsetSq f64 junk fuel cov acts) in
  let% A_subset := det (getSubsetSq f64 junk fuel A acts) in
  let% B_subset := det (getSubsetRC f64 junk fuel B acts actc) in
  let% Rc_subset := det (getSubsetSq f64 junk fuel Rc actc) in
  let% P_subset := det (getSubsetRC f64 junk fuel P acts []) in
  let% V_subset := det (getSubsetRC f64 junk fuel V acts actc) in
  let% Ax_subset := mulv A_subset x_subset in
  let% Bu_subset := mulv B_subset u_subset in
  let% Ax_full := det (convertSubsetToFullZeroed f64 fzero fuel Ax_subset acts stateSize) in
  let% Bu_full := det (convertSubsetToFullZeroed f64 fzero fuel Bu_subset acts stateSize) in
  let% x' := addv Ax_full Bu_full in
  let% cov_prime_subset := cov_expr A_subset cov_subset P_subset Rp V_subset Rc_subset in
  let% cov' := det (convertSubsetToFullSq f64 fuel cov_prime_subset cov acts) in
  det (Ok (x', cov')).
(** ekf_vs.cpp:13-29 *)
Definition ekfvs_predict (acts actc : list nat) (g : fv) (G P V Rp Rc : fm) (cov : fm) : rel (fv * fm) :=
  let% cov_subset := det (getSubsetSq f64 junk fuel cov acts) in
  let% G_subset := det (getSubsetSq f64 junk fuel G acts) in
  let% Rc_subset := det (getSubsetSq f64 junk fuel Rc actc) in
  let% P_subset := det (getSubsetRC f64 junk fuel P acts []) in
  let% V_subset := det (getSubsetRC f64 junk fuel V acts actc) in
  let% cov_prime_subset := cov_expr G_subset cov_subset P_subset Rp V_subset Rc_subset in
  let% cov' := det (convertSubsetToFullSq f64 fuel cov_prime_subset cov acts) in
  det (Ok (g, cov')).
(** kalman_filter_vs.cpp:65-91 *)
Definition kfvs_correct (acts actz : list nat) (stateSize measurementSize : nat) (C Q : fm) (x z : fv) (cov : fm) : rel (fv * fm) :=
  let% x_subset := det (getSubset f64 junk fuel x acts) in
  let% cov_subset := det (getSubsetSq f64 junk fuel cov acts) in
  let% C_subset := det (getSubsetRC f64 junk fuel C actz acts) in
  let% meas_cov_subset := det (getSubsetSq f64 junk fuel Q actz) in
  let% cov_C_T := mul cov_subset (transp C_subset) in
  let% inv := plus_inverse C_subset cov_C_T meas_cov_subset in
  let% K := mul cov_C_T inv in
  let% z_prime_subset := mulv C_subset x_subset in
  let% z_prime_full := det (convertSubsetToFullZeroed f64 fzero fuel z_prime_subset actz measurementSize) in
  let% dz_full := subv z z_prime_full in
  let% dz_subset := det (getSubset f64 junk fuel dz_full actz) in
  let% dx_subset := mulv K dz_subset in
  let% dx_full := det (convertSubsetToFullZeroed f64 fzero fuel dx_subset acts stateSize) in
  let% x' := addv x dx_full in
  let% cov_prime := joseph K C_subset cov_subset in
  let% cov' := det (convertSubsetToFullSq f64 fuel cov_prime cov acts) in
  det (Ok (x', cov')).
(** ekf_vs.cpp:51-76 *)
Definition ekfvs_correct (acts actz : list nat) (stateSize : nat) (h : fv) (H Q : fm) (x z : fv) (cov : fm) : rel (fv * fm) :=
  let% cov_subset := det (getSubsetSq f64 junk fuel cov acts) in
  let% H_subset := det (getSubsetRC f64 junk fuel H actz acts) in
  let% meas_cov_subset := det (getSubsetSq f64 junk fuel Q actz) in
  let% cov_H_T := mul cov_subset (transp H_subset) in
  let% inv := plus_inverse H_subset cov_H_T meas_cov_subset in
  let% K := mul cov_H_T inv in
  let% dz_full := subv z h in
  let% dz_subset := det (getSubset f64 junk fuel dz_full actz) in
  let% dx_subset := mulv K dz_subset in
  let% dx_full := det (convertSubsetToFullZeroed f64 fzero fuel dx_subset acts stateSize) in
  let% x' := addv x dx_full in
  let% cov_prime := joseph K H_subset cov_subset in
  let% cov' := det (convertSubsetToFullSq f64 fuel cov_prime cov acts) in
  det (Ok (x', cov')).
End VS.
