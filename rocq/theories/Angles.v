(** include/state_estimation/utilities/angle_utilities.h and src/definitions/planar_2d_motion.cpp in
    exact real arithmetic (M_PI is pi, no rounding; doubles: AngleFloat.v).  weightedQuaternion is
    in Quaternions (QuatMean.v). *)
From Coq Require Import Reals List Lra.
From Verif Require Import Outcome.
Import ListNotations.
Open Scope R_scope.

(** ** while loops: [None] when the loop has not ended after [fuel] tests of its condition *)
Fixpoint while {A : Type} (fuel : nat) (cond : A -> bool) (step : A -> A) (a : A) : option A :=
  match fuel with
  | O => None
  | S k => if cond a then while k cond step (step a) else Some a
  end.
(** the loop ends with b *)
Definition while_ends {A : Type} (cond : A -> bool) (step : A -> A) (a b : A) : Prop := exists fuel, while fuel cond step a = Some b.

Definition gtb (x y : R) : bool := if Rlt_dec y x then true else false.

(** angle_utilities.h:15-24, constrainAngle(double): the call returns b *)
Definition constrain_returns (a b : R) : Prop :=
  exists c, while_ends (fun x => gtb x PI) (fun x => x - 2 * PI) a c
         /\ while_ends (fun x => gtb (- PI) x) (fun x => x + 2 * PI) c b.
(** the same as a function: loops run with enough fuel for [a] (that it is enough is proved:
    constrainAngle_total, constrainAngle_returns) *)
Definition fuel_for (a : R) : nat := S (Z.to_nat (up (Rabs a / (2 * PI)))).
Definition constrainAngle (a : R) : outcome R :=
  match while (fuel_for a) (fun x => gtb x PI) (fun x => x - 2 * PI) a with
  | None => Ub ub_diverges
  | Some c =>
    match while (fuel_for a) (fun x => gtb (- PI) x) (fun x => x + 2 * PI) c with
    | None => Ub ub_diverges
    | Some b => Ok b
    end
  end.
(** :26-33, on vectors *)
Fixpoint constrainAngles (a : list R) : outcome (list R) :=
  match a with
  | [] => Ok []
  | x :: a' => let* y := constrainAngle x in let* ys := constrainAngles a' in Ok (y :: ys)
  end.

(** C's fmod(x, y): x - y * n with n = x / y rounded towards zero *)
Definition trunc (x : R) : Z := if Rle_dec 0 x then Int_part x else (- Int_part (- x))%Z.
Definition fmod (x y : R) : R := x - y * IZR (trunc (x / y)).
(** :44-48, angleDifference *)
Definition angleDifference (theta1 theta2 : R) : R :=
  let dtheta := theta1 - theta2 in
  let dtheta := fmod dtheta (2 * PI) in
  fmod (2 * dtheta) (2 * PI) - dtheta.
(** :50-60, on vectors *)
Fixpoint angleDifferences (a b : list R) : outcome (list R) :=
  match a, b with
  | [], [] => Ok []
  | x :: a', y :: b' => let* ds := angleDifferences a' b' in Ok (angleDifference x y :: ds)
  | _, _ => Ub ub_dim
  end.

(** C's atan2 (zeros are unsigned here: atan2(0, x) is 0 for x >= 0, pi for x < 0) *)
Definition atan2 (y x : R) : R :=
  if Rlt_dec 0 x then atan (y / x)
  else if Rlt_dec x 0 then (if Rlt_dec y 0 then atan (y / x) - PI else atan (y / x) + PI)
  else if Rlt_dec 0 y then PI / 2
  else if Rlt_dec y 0 then - (PI / 2)
  else 0.

(** (w.array() * v.array()).sum() *)
Fixpoint wsum (w v : list R) : R :=
  match w, v with
  | a :: w', b :: v' => a * b + wsum w' v'
  | _, _ => 0
  end.
(** :100-106, weightedAngleSum *)
Definition weightedAngleSum (w thetas : list R) : outcome R :=
  if Nat.eqb (length w) (length thetas) then
    Ok (atan2 (wsum w (map sin thetas)) (wsum w (map cos thetas)))
  else Ub ub_dim.

(** ** planar_2d_motion.cpp *)
(** a state vector of 8 entries; entry 6 is the heading (planar_2d_motion.h:15-24) *)
Definition p2_DIMS : nat := 8.
Definition p2_PSI : nat := 6.
Definition p2_state : Type := nat -> R.
Definition p2_set (x : p2_state) (i : nat) (v : R) : p2_state := fun j => if Nat.eqb j i then v else x j.
(** :7-14, addState *)
Definition p2_addState (lhs rhs : p2_state) : outcome p2_state :=
  let result := fun i => lhs i + rhs i in
  let* a := constrainAngle (result p2_PSI) in
  Ok (p2_set result p2_PSI a).
(** :16-23, subtractState *)
Definition p2_subtractState (lhs rhs : p2_state) : p2_state :=
  let result := fun i => lhs i - rhs i in
  p2_set result p2_PSI (angleDifference (lhs p2_PSI) (rhs p2_PSI)).
(** :25-39, weightedSumOfStates; the columns of X are given as a list *)
Definition p2_weightedSumOfStates (w : list R) (X : list p2_state) : outcome p2_state :=
  if Nat.eqb (length w) (length X) then
    let X_sum := fold_left (fun (acc : p2_state) (wx : R * p2_state) => fun i => acc i + fst wx * snd wx i) (combine w X) (fun _ => 0) in
    let* a := weightedAngleSum w (map (fun x => x p2_PSI) X) in
    Ok (p2_set X_sum p2_PSI a)
  else Ub ub_dim.
