(** A correction of the unscented filter in double arithmetic (IEEE binary64, to nearest even), default vector
    operations (filter_model.cpp:87-106), whatever the order of the additions and with or without fused
    multiply-add ([MatFloat.sums]). *)
From Coq Require Import ZArith Reals Lra Lia Bool List.
From Flocq Require Import Core IEEE754.BinarySingleNaN.
From Verif Require Import Outcome FB_Model FloatTime AngleFloat KF_Float MatFloat UKFFloat LltFloat.
Import ListNotations.

(** ukf.cpp:113-126: the sigma points, column 0 the state, then the state plus and minus the columns of L *)
Definition ukf64_points (n : nat) (x : fvec) (L : fmat) : fmat := fun a i =>
  if Nat.eqb i 0 then x a else if Nat.leb i n then fadd64 (x a) (L a (i - 1)%nat) else fsub64 (x a) (L a (i - 1 - n)%nat).
(** ukf.cpp:132-137: the innovation covariance, from k rows of q observed sigma points Z *)
Definition ukf64_innovation (k q : nat) (w : fvec) (Z : fmat) (zp : fvec) (Q S : fmat) : Prop :=
  let dz : fmat := fun a i => fsub64 (Z a i) (zp a) in
  forall a b, (a < k)%nat -> (b < k)%nat -> sums ((fone, Q a b) :: pairs q (fun i => fmul64 (w i) (dz a i)) (dz b)) (S a b).
(** ukf.cpp:139-147: the cross covariance *)
Definition ukf64_cross (n k q : nat) (w : fvec) (X Z : fmat) (zp : fvec) (PC : fmat) : Prop :=
  let dx : fmat := fun a i => fsub64 (X a i) (X a 0%nat) in let dz : fmat := fun a i => fsub64 (Z a i) (zp a) in
  forall a b, (a < n)%nat -> (b < k)%nat -> sums (pairs q (fun i => fmul64 (w i) (dx a i)) (dz b)) (PC a b).
(** ukf.cpp:154: covariance -= K * S * K' *)
Definition ukf64_corrected_cov (n k : nat) (cov K S cov' : fmat) : Prop :=
  exists KS, product n k k K S KS /\
  forall i j, (i < n)%nat -> (j < n)%nat -> sums ((fone, cov i j) :: pairs k (fun a => fopp64 (KS i a)) (K j)) (cov' i j).
(** ukf.cpp:103-154, myCorrect with the default parameters (alpha^2 = a2, kappa = 0, beta = 2); h is what the measurement model
    predicts for a state, [inverts] what S.inverse() returns *)
Definition ukf64_correct (n k : nat) (a2 lambda beta : f64) (h : fvec -> fvec) (inverts : fmat -> fmat -> Prop) (x z : fvec) (cov Q : fmat)
    (x' : fvec) (cov' : fmat) : Prop :=
  exists L zp S PC inv K,
  let X := ukf64_points n x L in let Z : fmat := fun l i => h (fun a => X a i) l in
  ukf64_lambda n a2 fzero lambda /\ ukf64_offsets n (fadd64 (f_of_nat n) lambda) cov L /\
  weighted_sum64 k (2 * n + 1) (ukf64_w_mean n lambda) Z zp /\
  ukf64_innovation k (2 * n + 1) (ukf64_w_cov n lambda a2 beta) Z zp Q S /\
  ukf64_cross n k (2 * n + 1) (ukf64_w_cov n lambda a2 beta) X Z zp PC /\
  inverts S inv /\ product n k k PC inv K /\
  ekf_corrected_state n k K x z zp x' /\ ukf64_corrected_cov n k cov K S cov'.
