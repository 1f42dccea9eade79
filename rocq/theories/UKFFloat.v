(** The unscented filter's weights and weighted sums in double arithmetic (IEEE binary64, to nearest even),
    whatever the order of the additions and with or without fused multiply-add ([MatFloat.sums]). *)
From Coq Require Import ZArith Reals Lra Lia Bool List.
From Flocq Require Import Core IEEE754.BinarySingleNaN.
From Verif Require Import Outcome FB_Model FloatTime AngleFloat KF_Float MatFloat.
Import ListNotations.

(** conversion of an unsigned integer to double *)
Definition f_of_nat (n : nat) : f64 := binary_normalize 53 1024 prec64_gt_0 prec64_lt mode_NE (Z.of_nat n) 0 false.
Definition fhalf : f64 := binary_normalize 53 1024 prec64_gt_0 prec64_lt mode_NE 1 (-1) false.

(** ukf.cpp:18-34, setSigmaPointParameters; a2 is what pow(alpha, 2) returns; the compiler may fuse the
    multiplication and the subtraction *)
Definition ukf64_lambda (n : nat) (a2 kappa lambda : f64) : Prop :=
  lambda = fsub64 (fmul64 a2 (fadd64 (f_of_nat n) kappa)) (f_of_nat n) \/
  lambda = ffma64 a2 (fadd64 (f_of_nat n) kappa) (fopp64 (f_of_nat n)).
Definition ukf64_w_mean (n : nat) (lambda : f64) : fvec := fun i =>
  match i with 0%nat => fdiv64 lambda (fadd64 (f_of_nat n) lambda) | _ => fdiv64 fhalf (fadd64 (f_of_nat n) lambda) end.
Definition ukf64_w_cov (n : nat) (lambda a2 beta : f64) : fvec := fun i =>
  match i with 0%nat => fadd64 (fsub64 (fadd64 (ukf64_w_mean n lambda 0%nat) fone) a2) beta | _ => ukf64_w_mean n lambda i end.
(** filter_model.cpp:97-106, the default weightedSum of q columns of X with r rows *)
Definition weighted_sum64 (r q : nat) (w : fvec) (X : fmat) (x : fvec) : Prop :=
  forall j, (j < r)%nat -> sums (pairs q w (X j)) (x j).
(** ukf.cpp:79-86, the covariance after predict, from the sigma points X and the new state x (default
    subtractVectors); also :133-137 with the measurement covariance for the first two products *)
Definition ukf64_cov (r q p m : nat) (w : fvec) (X : fmat) (x : fvec) (Pn Rp V Rc cov' : fmat) : Prop :=
  exists PR VR : fmat, product r p p Pn Rp PR /\ product r m m V Rc VR /\
  let dx : fmat := fun a i => fsub64 (X a i) (x a) in
  forall a b, (a < r)%nat -> (b < r)%nat ->
    sums (pairs p (PR a) (Pn b) ++ pairs m (VR a) (V b) ++ pairs q (fun i => fmul64 (w i) (dx a i)) (dx b)) (cov' a b).
