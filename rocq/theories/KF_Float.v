(** The variance of a one-state KalmanFilter with one-entry measurements in double arithmetic (IEEE
    binary64, round to nearest even): src/filters/kalman_filter.cpp:13-16, 40-50 with every matrix 1 x 1.
    A product of 1 x 1 matrices is one multiplication; Eigen's inverse of a 1 x 1 matrix is 1 / s. *)
From Coq Require Import ZArith Reals Lra Lia Bool.
From Flocq Require Import Core IEEE754.BinarySingleNaN Relative.
From Verif Require Import Outcome FB_Model FloatTime AngleFloat.

Definition fmul64 : f64 -> f64 -> f64 := Bmult mode_NE.
Definition fdiv64 : f64 -> f64 -> f64 := Bdiv mode_NE.
Definition fone : f64 := Bone.
(** kalman_filter.cpp:13-16: A * cov * A' + P * Rp * P' + V * Rc * V' *)
Definition kf64_predict (A Pn Rp V Rc cov : f64) : f64 :=
  fadd64 (fadd64 (fmul64 (fmul64 A cov) A) (fmul64 (fmul64 Pn Rp) Pn)) (fmul64 (fmul64 V Rc) V).
(** :40-41 *)
Definition kf64_gain (C Q cov : f64) : f64 :=
  let cov_C_T := fmul64 cov C in
  fmul64 cov_C_T (fdiv64 fone (fadd64 (fmul64 C cov_C_T) Q)).
(** :50, (I - K * C) * cov *)
Definition kf64_correct (C Q cov : f64) : f64 :=
  fmul64 (fsub64 fone (fmul64 (kf64_gain C Q cov) C)) cov.

Open Scope R_scope.
(** ** Operations without overflow *)
Notation big := (bpow radix2 1000).
Lemma below x : Rabs x <= big -> Rabs (rnd64 x) < bpow radix2 1024.
Proof. intros H. eapply Rle_lt_trans; [apply (rnd_abs_le x 1000); [lia|exact H]|apply bpow_lt; lia]. Qed.
Lemma mul_ok a b : finite a = true -> finite b = true -> Rabs (val a * val b) <= big -> finite (fmul64 a b) = true /\ val (fmul64 a b) = rnd64 (val a * val b).
Proof.
  intros Fa Fb H. pose proof (Bmult_correct 53 1024 prec64_gt_0 prec64_lt mode_NE a b) as C. simpl round_mode in C.
  rewrite Rlt_bool_true in C by (apply below, H). destruct C as (V & F & _). split; [|exact V]. etransitivity; [exact F|]. rewrite Fa, Fb. reflexivity.
Qed.
Lemma div_ok a b : finite a = true -> val b <> 0 -> Rabs (val a / val b) <= big -> finite (fdiv64 a b) = true /\ val (fdiv64 a b) = rnd64 (val a / val b).
Proof.
  intros Fa Hb H. pose proof (Bdiv_correct 53 1024 prec64_gt_0 prec64_lt mode_NE a b Hb) as C. simpl round_mode in C.
  rewrite Rlt_bool_true in C by (apply below, H). destruct C as (V & F & _). split; [|exact V]. etransitivity; [exact F|]. exact Fa.
Qed.
Lemma add_ok a b : finite a = true -> finite b = true -> Rabs (val a + val b) <= big -> finite (fadd64 a b) = true /\ val (fadd64 a b) = rnd64 (val a + val b).
Proof.
  intros Fa Fb H. destruct (fadd_cases a b Fa Fb) as [C|(_ & _ & C)]; [exact C|]. pose proof (below _ H). lra.
Qed.
Lemma sub_ok a b : finite a = true -> finite b = true -> Rabs (val a - val b) <= big -> finite (fsub64 a b) = true /\ val (fsub64 a b) = rnd64 (val a - val b).
Proof.
  intros Fa Fb H. destruct (fsub_cases a b Fa Fb) as [C|(_ & _ & C)]; [exact C|]. pose proof (below _ H). lra.
Qed.
Lemma one_ok : finite fone = true /\ val fone = 1.
Proof. split; [reflexivity|apply Bone_correct]. Qed.
(** ** Relative error *)
Definition uu : R := bpow radix2 (-53).
Lemma uu_val : uu = / IZR 9007199254740992.
Proof. reflexivity. Qed.
Lemma rnd_rel x : bpow radix2 (-1022) <= x -> x * (1 - uu) <= rnd64 x <= x * (1 + uu).
Proof.
  intros H. pose proof (bpow_gt_0 radix2 (-1022)) as P.
  destruct (relative_error_N_FLT_ex radix2 (-1074) 53 eq_refl (fun n => negb (Z.even n)) x) as (e & He & Er).
  { rewrite Rabs_pos_eq by lra. exact H. }
  change (round radix2 (FLT_exp (-1074) 53) (Znearest (fun n => negb (Z.even n))) x) with (rnd64 x) in Er. rewrite Er.
  assert (/ 2 * bpow radix2 (- (53) + 1) = uu) as Eu by (unfold uu; change (- (53) + 1)%Z with (-53 + 1)%Z; rewrite bpow_plus; change (bpow radix2 1) with 2; field).
  rewrite Eu in He. apply Rabs_le_inv in He. split; apply Rmult_le_compat_l; lra.
Qed.
Lemma rnd_pos x : 0 <= x -> 0 <= rnd64 x.
Proof. intros H. rewrite <- rnd_0. apply rnd_mono, H. Qed.
Lemma rnd_le_fmt x y : fmt64 y -> x <= y -> rnd64 x <= y.
Proof. intros F H. rewrite <- (rnd_id y F). apply rnd_mono, H. Qed.
Lemma rnd_ge_fmt x y : fmt64 y -> y <= x -> y <= rnd64 x.
Proof. intros F H. rewrite <- (rnd_id y F). apply rnd_mono, H. Qed.
Lemma rnd_abs x : Rabs (rnd64 x) = rnd64 (Rabs x).
Proof.
  destruct (Rle_dec 0 x) as [H|H].
  - rewrite !Rabs_pos_eq; auto using rnd_pos.
  - rewrite (Rabs_left x), rnd_neg, Rabs_left1 by (try lra; rewrite <- rnd_0; apply rnd_mono; lra). reflexivity.
Qed.
