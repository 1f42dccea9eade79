(** C91: the variance of a one-state Kalman filter in double arithmetic. *)
From Coq Require Import ZArith Reals Lra Lia Bool List Psatz.
From Flocq Require Import Core IEEE754.BinarySingleNaN Relative.
From Verif Require Import Outcome FB_Model FloatTime AngleFloat KF_Float.
Import ListNotations.
Open Scope R_scope.

(** ** Specification *)
Definition nonneg64 (p : f64) : Prop := finite p = true /\ 0 <= val p.
(** far from overflow and underflow *)
Definition ordinary (x : f64) : Prop := finite x = true /\ bpow radix2 (-100) <= Rabs (val x) <= bpow radix2 100.
Definition C91_claim : Prop := forall C Q P : f64, ordinary C -> ordinary P -> 0 <= val P -> finite Q = true -> 0 <= val Q <= bpow radix2 100 ->
  nonneg64 (kf64_correct C Q P).

(** ** Ranges *)
Lemma mul_range x y a b c d : bpow radix2 a <= x <= bpow radix2 b -> bpow radix2 c <= y <= bpow radix2 d -> bpow radix2 (a + c) <= x * y <= bpow radix2 (b + d).
Proof.
  intros [H1 H2] [H3 H4]. rewrite !bpow_plus. pose proof (bpow_gt_0 radix2 a). pose proof (bpow_gt_0 radix2 c).
  split; apply Rmult_le_compat; lra.
Qed.
Lemma rnd_range x a b : (-1000 <= a <= 1000)%Z -> (-1000 <= b <= 1000)%Z -> bpow radix2 a <= x <= bpow radix2 b -> bpow radix2 a <= rnd64 x <= bpow radix2 b.
Proof.
  intros Ha Hb [H1 H2]. split; [apply rnd_ge_fmt|apply rnd_le_fmt]; auto; apply fmt_bpow; lia.
Qed.
Lemma inv_range x a b : bpow radix2 a <= x <= bpow radix2 b -> bpow radix2 (- b) <= 1 / x <= bpow radix2 (- a).
Proof.
  intros [H1 H2]. rewrite !bpow_opp. pose proof (bpow_gt_0 radix2 a). unfold Rdiv. rewrite Rmult_1_l.
  split; apply Rinv_le_contravar; lra.
Qed.
Lemma range_big x a b : (b <= 1000)%Z -> bpow radix2 a <= x <= bpow radix2 b -> Rabs x <= big.
Proof.
  intros Hb [H1 H2]. pose proof (bpow_gt_0 radix2 a). rewrite Rabs_pos_eq by lra. eapply Rle_trans; [exact H2|apply bpow_le, Hb].
Qed.
Lemma range_normal x a b : (-1022 <= a)%Z -> bpow radix2 a <= x <= bpow radix2 b -> bpow radix2 (-1022) <= x.
Proof. intros Ha [H1 _]. eapply Rle_trans; [apply bpow_le, Ha|exact H1]. Qed.
(** the same computation on real numbers, for positive c *)
Definition k_real (c q p : R) : R :=
  let a := rnd64 (p * c) in let t := rnd64 (c * a) in let s := rnd64 (t + q) in
  rnd64 (rnd64 (a * rnd64 (1 / s)) * c).
Lemma uu_small : 0 < uu /\ uu < / 1000000.
Proof. rewrite uu_val. split; lra. Qed.
Lemma k_bounds c q p : bpow radix2 (-100) <= c <= bpow radix2 100 -> bpow radix2 (-100) <= p <= bpow radix2 100 -> 0 <= q <= bpow radix2 100 ->
  0 <= k_real c q p <= 1 + 5 * uu.
Proof.
  intros Hc Hp Hq. unfold k_real. cbv zeta.
  pose proof (mul_range _ _ _ _ _ _ Hp Hc) as R1. simpl Z.add in R1. pose proof (rnd_range _ (-200) 200 ltac:(lia) ltac:(lia) R1) as Ra. set (a := rnd64 (p * c)) in *.
  pose proof (mul_range _ _ _ _ _ _ Hc Ra) as R2. simpl Z.add in R2. pose proof (rnd_range _ (-300) 300 ltac:(lia) ltac:(lia) R2) as Rt.
  pose proof (proj1 (rnd_rel _ (range_normal _ (-300) 300 ltac:(lia) R2))) as E2. assert (fmt64 (rnd64 (c * a))) as Ft by (pose proof valid64; apply generic_format_round; auto with typeclass_instances).
  set (t := rnd64 (c * a)) in *.
  assert (bpow radix2 (-300) <= t + q <= bpow radix2 301) as R3.
  { assert (bpow radix2 100 <= bpow radix2 300) by (apply bpow_le; lia). change 301%Z with (300 + 1)%Z. rewrite bpow_plus. change (bpow radix2 1) with 2. lra. }
  pose proof (rnd_range _ (-300) 301 ltac:(lia) ltac:(lia) R3) as Rs. assert (t <= rnd64 (t + q)) as Hst by (apply rnd_ge_fmt; [exact Ft|lra]). set (s := rnd64 (t + q)) in *.
  pose proof (inv_range _ _ _ Rs) as R4. simpl Z.opp in R4. pose proof (rnd_range _ (-301) 300 ltac:(lia) ltac:(lia) R4) as Ri.
  pose proof (proj2 (rnd_rel _ (range_normal _ (-301) 300 ltac:(lia) R4))) as E4. set (i := rnd64 (1 / s)) in *.
  pose proof (mul_range _ _ _ _ _ _ Ra Ri) as R5. simpl Z.add in R5. pose proof (rnd_range _ (-501) 500 ltac:(lia) ltac:(lia) R5) as Rk.
  pose proof (proj2 (rnd_rel _ (range_normal _ (-501) 500 ltac:(lia) R5))) as E5. set (K := rnd64 (a * i)) in *.
  pose proof (mul_range _ _ _ _ _ _ Rk Hc) as R6. simpl Z.add in R6. pose proof (proj2 (rnd_rel _ (range_normal _ (-601) 600 ltac:(lia) R6))) as E6.
  pose proof (bpow_gt_0 radix2 (-501)). pose proof (bpow_gt_0 radix2 (-100)). pose proof (bpow_gt_0 radix2 (-200)). pose proof (bpow_gt_0 radix2 (-300)). pose proof (bpow_gt_0 radix2 (-301)).
  split; [apply rnd_pos, Rmult_le_pos; lra|]. eapply Rle_trans; [exact E6|]. pose proof uu_small as [U0 U1].
  assert (0 < c) as Pc by lra. assert (0 < a) as Pa by lra. assert (0 < t) as Pt by lra. assert (0 < s) as Ps by lra.
  apply Rle_trans with (a * (1 / s * (1 + uu)) * (1 + uu) * c * (1 + uu)).
  { apply Rmult_le_compat_r; [lra|]. apply Rmult_le_compat_r; [lra|]. eapply Rle_trans; [exact E5|]. apply Rmult_le_compat_r; [lra|]. apply Rmult_le_compat_l; [lra|exact E4]. }
  replace (a * (1 / s * (1 + uu)) * (1 + uu) * c * (1 + uu)) with (c * a * ((1 + uu) * (1 + uu) * (1 + uu)) / s) by (field; lra).
  apply (Rmult_le_reg_r s); [exact Ps|]. replace (c * a * ((1 + uu) * (1 + uu) * (1 + uu)) / s * s) with (c * a * ((1 + uu) * (1 + uu) * (1 + uu))) by (field; lra).
  apply Rle_trans with ((1 + 5 * uu) * (c * a * (1 - uu))); [|apply Rmult_le_compat_l; lra].
  assert ((1 + uu) * (1 + uu) * (1 + uu) <= (1 + 5 * uu) * (1 - uu)) as Q by nra.
  assert (0 < c * a) as Pca by (apply Rmult_lt_0_compat; assumption).
  replace ((1 + 5 * uu) * (c * a * (1 - uu))) with (c * a * ((1 + 5 * uu) * (1 - uu))) by ring. apply Rmult_le_compat_l; lra.
Qed.
(** ** From the doubles to the real computation *)
Lemma sign_form x : exists s, (s = 1 \/ s = -1) /\ x = s * Rabs x.
Proof.
  destruct (Rle_dec 0 x); [exists 1|exists (-1)]; (split; [auto|]); [rewrite Rabs_pos_eq|rewrite Rabs_left]; lra.
Qed.
Lemma rnd_sign s x : s = 1 \/ s = -1 -> rnd64 (s * x) = s * rnd64 x.
Proof. intros [->| ->]; [rewrite !Rmult_1_l; reflexivity|]. replace (-1 * x) with (- x) by ring. rewrite rnd_neg. ring. Qed.
Lemma sign_big s x : s = 1 \/ s = -1 -> Rabs x <= big -> Rabs (s * x) <= big.
Proof. intros H Hx. rewrite Rabs_mult. replace (Rabs s) with 1; [lra|]. destruct H as [->| ->]; [rewrite Rabs_pos_eq|rewrite Rabs_left]; lra. Qed.
Lemma gain_real (C Q P : f64) : ordinary C -> ordinary P -> 0 <= val P -> finite Q = true -> 0 <= val Q <= bpow radix2 100 ->
  finite (fmul64 (kf64_gain C Q P) C) = true /\ val (fmul64 (kf64_gain C Q P) C) = k_real (Rabs (val C)) (val Q) (val P).
Proof.
  intros [FC Hc] [FP Hp] P0 FQ Hq. rewrite (Rabs_pos_eq (val P)) in Hp by exact P0. unfold kf64_gain, k_real. cbv zeta.
  destruct (sign_form (val C)) as (s & Hs & Ec). set (c := Rabs (val C)) in *. clearbody c.
  pose proof (mul_range _ _ _ _ _ _ Hp Hc) as R1. simpl Z.add in R1. pose proof (rnd_range _ (-200) 200 ltac:(lia) ltac:(lia) R1) as Ra.
  destruct (mul_ok P C FP FC) as [F1 V1]. { replace (val P * val C) with (s * (val P * c)) by (rewrite Ec; ring). apply sign_big; [exact Hs|]. apply (range_big _ (-200) 200); [lia|exact R1]. }
  replace (val P * val C) with (s * (val P * c)) in V1 by (rewrite Ec; ring). rewrite (rnd_sign _ _ Hs) in V1. set (a := rnd64 (val P * c)) in *.
  pose proof (mul_range _ _ _ _ _ _ Hc Ra) as R2. simpl Z.add in R2. pose proof (rnd_range _ (-300) 300 ltac:(lia) ltac:(lia) R2) as Rt.
  assert (s * s = 1) as Ss by (destruct Hs as [->| ->]; ring).
  assert (val C * val (fmul64 P C) = c * a) as E2. { rewrite V1, Ec. replace (s * c * (s * a)) with (s * s * (c * a)) by ring. rewrite Ss. ring. }
  destruct (mul_ok C (fmul64 P C) FC F1) as [F2 V2]. { rewrite E2. apply (range_big _ (-300) 300); [lia|exact R2]. }
  rewrite E2 in V2. set (t := rnd64 (c * a)) in *.
  assert (bpow radix2 (-300) <= t + val Q <= bpow radix2 301) as R3.
  { assert (bpow radix2 100 <= bpow radix2 300) by (apply bpow_le; lia). change 301%Z with (300 + 1)%Z. rewrite bpow_plus. change (bpow radix2 1) with 2. lra. }
  destruct (add_ok (fmul64 C (fmul64 P C)) Q F2 FQ) as [F3 V3]. { rewrite V2. apply (range_big _ (-300) 301); [lia|exact R3]. }
  rewrite V2 in V3. pose proof (rnd_range _ (-300) 301 ltac:(lia) ltac:(lia) R3) as Rs. set (S := rnd64 (t + val Q)) in *.
  pose proof (inv_range _ _ _ Rs) as R4. simpl Z.opp in R4. destruct one_ok as [F0 V0]. pose proof (bpow_gt_0 radix2 (-300)).
  destruct (div_ok fone (fadd64 (fmul64 C (fmul64 P C)) Q) F0) as [F4 V4]; [rewrite V3; lra|rewrite V0, V3; apply (range_big _ (-301) 300); [lia|exact R4]|].
  rewrite V0, V3 in V4. pose proof (rnd_range _ (-301) 300 ltac:(lia) ltac:(lia) R4) as Ri. set (i := rnd64 (1 / S)) in *.
  pose proof (mul_range _ _ _ _ _ _ Ra Ri) as R5. simpl Z.add in R5. pose proof (rnd_range _ (-501) 500 ltac:(lia) ltac:(lia) R5) as Rk.
  destruct (mul_ok (fmul64 P C) (fdiv64 fone (fadd64 (fmul64 C (fmul64 P C)) Q)) F1 F4) as [F5 V5].
  { rewrite V1, V4. replace (s * a * i) with (s * (a * i)) by ring. apply sign_big; [exact Hs|]. apply (range_big _ (-501) 500); [lia|exact R5]. }
  rewrite V1, V4 in V5. replace (s * a * i) with (s * (a * i)) in V5 by ring. rewrite (rnd_sign _ _ Hs) in V5. set (K := rnd64 (a * i)) in *.
  pose proof (mul_range _ _ _ _ _ _ Rk Hc) as R6. simpl Z.add in R6.
  set (g := fmul64 (fmul64 P C) (fdiv64 fone (fadd64 (fmul64 C (fmul64 P C)) Q))) in *.
  assert (val g * val C = K * c) as E6. { rewrite V5, Ec. replace (s * K * (s * c)) with (s * s * (K * c)) by ring. rewrite Ss. ring. }
  destruct (mul_ok g C F5 FC) as [F6 V6]. { rewrite E6. apply (range_big _ (-601) 600); [lia|exact R6]. }
  rewrite E6 in V6. split; [exact F6|exact V6].
Qed.
(** ** C91 *)
Lemma fmt_1 : fmt64 1.
Proof. change 1 with (bpow radix2 0). apply fmt_bpow. lia. Qed.
Lemma fmt_5u : fmt64 (- (5 * uu)).
Proof.
  apply generic_format_opp. replace (5 * uu) with (F2R (Float radix2 5 (-53))) by (unfold F2R, uu; cbn [Fnum Fexp]; reflexivity).
  apply (generic_format_FLT radix2 (-1074) 53). exists (Float radix2 5 (-53)); [reflexivity|simpl; lia|simpl; lia].
Qed.
Lemma finish (k P : f64) : finite k = true -> ordinary P -> 0 <= val P -> 0 <= val k <= 1 + 5 * uu ->
  finite (fmul64 (fsub64 fone k) P) = true /\ - bpow radix2 (-50) * val P <= val (fmul64 (fsub64 fone k) P) <= val P
  /\ (val k <= 1 -> 0 <= val (fmul64 (fsub64 fone k) P)).
Proof.
  intros Fk [FP Hp] P0 [K0 K1]. rewrite (Rabs_pos_eq (val P)) in Hp by exact P0. destruct one_ok as [F0 V0]. pose proof uu_small as [U0 U1].
  assert (1 <= big) as B1 by (change 1 with (bpow radix2 0); apply bpow_le; lia).
  destruct (sub_ok fone k F0 Fk) as [F1 V1]. { rewrite V0. apply Rabs_le. lra. }
  rewrite V0 in V1. assert (- (5 * uu) <= val (fsub64 fone k) <= 1) as R1.
  { rewrite V1. split; [apply rnd_ge_fmt; [apply fmt_5u|lra]|apply rnd_le_fmt; [apply fmt_1|lra]]. }
  assert (bpow radix2 100 <= big) as B2 by (apply bpow_le; lia).
  set (m := fsub64 fone k) in *. destruct (mul_ok m P F1 FP) as [F2 V2].
  { rewrite Rabs_mult, (Rabs_pos_eq (val P)) by exact P0. apply Rle_trans with (1 * val P); [apply Rmult_le_compat_r; [exact P0|apply Rabs_le; lra]|lra]. }
  split; [exact F2|]. rewrite V2. split; [split|].
  - apply Rle_trans with (rnd64 (- (5 * uu * val P))); [|apply rnd_mono; nra].
    rewrite rnd_neg. rewrite Ropp_mult_distr_l_reverse. apply Ropp_le_contravar.
    assert (bpow radix2 (-153) <= 5 * uu * val P) as Hn.
    { change (-153)%Z with (-53 + -100)%Z. rewrite bpow_plus. fold uu. pose proof (bpow_gt_0 radix2 (-100)). nra. }
    pose proof (proj2 (rnd_rel (5 * uu * val P) (Rle_trans _ _ _ (bpow_le radix2 (-1022) (-153) ltac:(lia)) Hn))) as E.
    eapply Rle_trans; [exact E|]. change (-50)%Z with (-53 + 3)%Z. rewrite bpow_plus. fold uu. change (bpow radix2 3) with 8. assert (5 * (1 + uu) <= 8) as A1 by lra.
    replace (5 * uu * val P * (1 + uu)) with (5 * (1 + uu) * (uu * val P)) by ring. replace (uu * 8 * val P) with (8 * (uu * val P)) by ring.
    apply Rmult_le_compat_r; [apply Rmult_le_pos; lra|exact A1].
  - apply rnd_le_fmt; [apply fmt_val|]. nra.
  - intros Hk. apply rnd_pos. apply Rmult_le_pos; [|exact P0]. rewrite V1. apply rnd_pos. lra.
Qed.
(** the variance is at most the old one, and below zero by at most 2^-50 of the old one *)
Theorem C91_bound_partial (C Q P : f64) : ordinary C -> ordinary P -> 0 <= val P -> finite Q = true -> 0 <= val Q <= bpow radix2 100 ->
  finite (kf64_correct C Q P) = true /\ - bpow radix2 (-50) * val P <= val (kf64_correct C Q P) <= val P.
Proof.
  intros HC HP P0 FQ Hq. destruct (gain_real C Q P HC HP P0 FQ Hq) as [Fk Vk].
  pose proof (k_bounds (Rabs (val C)) (val Q) (val P)) as B. destruct HC as [_ HC]. pose proof HP as [_ Hp]. rewrite (Rabs_pos_eq (val P)) in Hp by exact P0.
  specialize (B HC Hp Hq). rewrite <- Vk in B. destruct (finish _ P Fk HP P0 B) as (F & R & _). split; [exact F|exact R].
Qed.
Lemma rnd_1u : rnd64 (1 + uu) <= 1.
Proof.
  set (h := @B754_finite 53 1024 false 4503599627370496 (-105) eq_refl).
  assert (val h = uu) as Vh. { unfold h, B2R, F2R, uu. cbn [Fnum Fexp]. simpl cond_Zopp. change (IZR 4503599627370496) with (bpow radix2 52). rewrite <- bpow_plus. reflexivity. }
  destruct one_ok as [F0 V0]. destruct (add_ok fone h F0 eq_refl) as [_ V].
  { rewrite V0, Vh. pose proof uu_small. apply Rle_trans with (bpow radix2 1); [simpl; apply Rabs_le; lra|apply bpow_le; lia]. }
  rewrite V0, Vh in V. rewrite <- V. right. assert (fadd64 fone h = fone) as -> by (apply B2SF_inj; vm_compute; reflexivity). exact V0.
Qed.
(** a direct measurement of the state, C = 1 or -1: never negative *)
Lemma unit_gain (C Q P : f64) : finite C = true -> Rabs (val C) = 1 -> finite P = true -> 0 <= val P <= bpow radix2 100 ->
  finite Q = true -> 0 <= val Q <= bpow radix2 100 -> bpow radix2 (-100) <= val P + val Q ->
  finite (fmul64 (kf64_gain C Q P) C) = true /\ 0 <= val (fmul64 (kf64_gain C Q P) C) <= 1.
Proof.
  intros FC HC FP Hp FQ Hq Hpq. unfold kf64_gain. cbv zeta. destruct (sign_form (val C)) as (s & Hs & Ec). rewrite HC, Rmult_1_r in Ec. clear HC.
  assert (s * s = 1) as Ss by (destruct Hs as [->| ->]; ring). pose proof (fmt_val P) as Fp.
  assert (bpow radix2 100 <= big) as B2 by (apply bpow_le; lia). assert (bpow radix2 101 = 2 * bpow radix2 100) as B3 by (change 101%Z with (1 + 100)%Z; rewrite bpow_plus; reflexivity).
  assert (1 <= bpow radix2 100) as B4 by (change 1 with (bpow radix2 0); apply bpow_le; lia).
  assert (forall x, 0 <= x <= bpow radix2 100 -> Rabs (s * x) <= big) as Bs by (intros x Hx; apply sign_big; [exact Hs|rewrite Rabs_pos_eq; lra]).
  destruct (mul_ok P C FP FC) as [F1 V1]. { rewrite Ec, Rmult_comm. apply Bs, Hp. }
  rewrite Ec, Rmult_comm, (rnd_sign _ _ Hs), (rnd_id _ Fp) in V1.
  assert (val C * val (fmul64 P C) = val P) as E2 by (rewrite V1, Ec, <- Rmult_assoc, Ss; ring).
  destruct (mul_ok C (fmul64 P C) FC F1) as [F2 V2]. { rewrite E2, Rabs_pos_eq; lra. }
  rewrite E2, (rnd_id _ Fp) in V2.
  assert (bpow radix2 (-100) <= val P + val Q <= bpow radix2 101) as R3 by lra.
  destruct (add_ok (fmul64 C (fmul64 P C)) Q F2 FQ) as [F3 V3]. { rewrite V2. apply (range_big _ (-100) 101); [lia|exact R3]. }
  rewrite V2 in V3. pose proof (rnd_range _ (-100) 101 ltac:(lia) ltac:(lia) R3) as Rs.
  assert (val P <= rnd64 (val P + val Q)) as Hle by (apply rnd_ge_fmt; [exact Fp|lra]). set (S := rnd64 (val P + val Q)) in *.
  pose proof (inv_range _ _ _ Rs) as R4. simpl Z.opp in R4. destruct one_ok as [F0 V0]. pose proof (bpow_gt_0 radix2 (-100)). pose proof (bpow_gt_0 radix2 (-101)).
  destruct (div_ok fone (fadd64 (fmul64 C (fmul64 P C)) Q) F0) as [F4 V4]; [rewrite V3; lra|rewrite V0, V3; apply (range_big _ (-101) 100); [lia|exact R4]|].
  rewrite V0, V3 in V4. pose proof (proj2 (rnd_rel _ (range_normal _ (-101) 100 ltac:(lia) R4))) as E4.
  pose proof (rnd_range _ (-101) 100 ltac:(lia) ltac:(lia) R4) as Ri. set (i := rnd64 (1 / S)) in *.
  pose proof uu_small as [U0 U1]. assert (0 < S) as Ps by lra.
  assert (val P * i <= 1 + uu) as Hx.
  { apply Rle_trans with (val P * (1 / S * (1 + uu))); [apply Rmult_le_compat_l; lra|]. replace (val P * (1 / S * (1 + uu))) with (val P / S * (1 + uu)) by (field; lra).
    assert (val P / S <= 1) by (apply (Rmult_le_reg_r S); [exact Ps|]; unfold Rdiv; rewrite Rmult_assoc, Rinv_l; lra). nra. }
  assert (0 <= val P * i) as Hx0 by (apply Rmult_le_pos; lra).
  (* 1 + 2^-53 is half way between 1 and its successor; ties go to the even one *)
  assert (0 <= rnd64 (val P * i) <= 1) as Hk by (split; [apply rnd_pos, Hx0|apply Rle_trans with (rnd64 (1 + uu)); [apply rnd_mono, Hx|apply rnd_1u]]).
  destruct (mul_ok (fmul64 P C) (fdiv64 fone (fadd64 (fmul64 C (fmul64 P C)) Q)) F1 F4) as [F5 V5].
  { rewrite V1, V4. replace (s * val P * i) with (s * (val P * i)) by ring. apply Bs. split; [exact Hx0|]. apply Rle_trans with 2; [lra|]. change 2 with (bpow radix2 1). apply bpow_le. lia. }
  rewrite V1, V4 in V5. replace (s * val P * i) with (s * (val P * i)) in V5 by ring. rewrite (rnd_sign _ _ Hs) in V5.
  set (g := fmul64 (fmul64 P C) (fdiv64 fone (fadd64 (fmul64 C (fmul64 P C)) Q))) in *. set (K := rnd64 (val P * i)) in *.
  assert (val g * val C = K) as E6. { rewrite V5, Ec. replace (s * K * s) with (s * s * K) by ring. rewrite Ss. ring. }
  destruct (mul_ok g C F5 FC) as [F6 V6]. { rewrite E6, Rabs_pos_eq; lra. }
  rewrite E6 in V6. split; [exact F6|]. rewrite V6. split; [apply rnd_pos, Hk|apply rnd_le_fmt; [apply fmt_1|apply Hk]].
Qed.
Theorem C91_unit_partial (C Q P : f64) : finite C = true -> Rabs (val C) = 1 -> finite P = true -> 0 <= val P <= bpow radix2 100 ->
  finite Q = true -> 0 <= val Q <= bpow radix2 100 -> bpow radix2 (-100) <= val P + val Q ->
  nonneg64 (kf64_correct C Q P) /\ val (kf64_correct C Q P) <= val P.
Proof.
  intros FC HC FP Hp FQ Hq Hpq. destruct (unit_gain C Q P FC HC FP Hp FQ Hq Hpq) as [Fk [K0 K1]]. unfold kf64_correct, nonneg64.
  set (k := fmul64 (kf64_gain C Q P) C) in *. destruct one_ok as [F0 V0].
  assert (1 <= big) as B1 by (change 1 with (bpow radix2 0); apply bpow_le; lia). assert (bpow radix2 100 <= big) as B2 by (apply bpow_le; lia).
  destruct (sub_ok fone k F0 Fk) as [F1 V1]. { rewrite V0. apply Rabs_le. lra. }
  rewrite V0 in V1. assert (0 <= val (fsub64 fone k) <= 1) as R1.
  { rewrite V1. split; [apply rnd_pos; lra|apply rnd_le_fmt; [apply fmt_1|lra]]. }
  destruct (mul_ok (fsub64 fone k) P F1 FP) as [F2 V2]. { rewrite Rabs_pos_eq; nra. }
  rewrite V2. split; [split; [exact F2|]|].
  - apply rnd_pos. nra.
  - apply rnd_le_fmt; [apply fmt_val|]. nra.
Qed.
(** C = 31 (a measurement in another unit), P = 1, Q = 2^-60: the variance becomes -2^-52 *)
Definition f_31 : f64 := @B754_finite 53 1024 false 8725724278030336 (-48) eq_refl.
Definition f_2m60 : f64 := @B754_finite 53 1024 false 4503599627370496 (-112) eq_refl.
Theorem C91_refuted : ~ C91_claim.
Proof.
  intros H. destruct (H f_31 f_2m60 fone) as [_ N].
  - split; [reflexivity|]. replace (val f_31) with 31 by (unfold f_31, B2R, F2R; cbn [Fnum Fexp]; change (bpow radix2 (-48)) with (/ IZR 281474976710656); simpl cond_Zopp; lra).
    rewrite Rabs_pos_eq by lra. split; [apply Rle_trans with (bpow radix2 0); [apply bpow_le; lia|simpl; lra]|apply Rle_trans with (bpow radix2 5); [simpl; lra|apply bpow_le; lia]].
  - destruct one_ok as [F V]. split; [exact F|]. rewrite V, Rabs_pos_eq by lra. change 1 with (bpow radix2 0). split; apply bpow_le; lia.
  - destruct one_ok as [_ ->]. lra.
  - reflexivity.
  - replace (val f_2m60) with (bpow radix2 (-60)); [split; [apply bpow_ge_0|apply bpow_le; lia]|].
    unfold f_2m60, B2R, F2R. cbn [Fnum Fexp]. simpl cond_Zopp. change (IZR 4503599627370496) with (bpow radix2 52). rewrite <- bpow_plus. reflexivity.
  - assert (Bsign (kf64_correct f_31 f_2m60 fone) = true) as S by (vm_compute; reflexivity).
    assert (is_finite_strict (kf64_correct f_31 f_2m60 fone) = true) as F by (vm_compute; reflexivity).
    revert N S F. destruct (kf64_correct f_31 f_2m60 fone) as [|[]| |[] m e B]; simpl; try discriminate. intros N _ _.
    assert (F2R (Float radix2 (Z.neg m) e) < 0) by (apply F2R_lt_0; simpl; lia). lra.
Qed.
(** ** Runs with direct measurements *)
(** one correction with C = 1, or one prediction with A = 1 and process noise *)
Inductive op64 : Type := Meas64 (Q : f64) | Noise64 (Pn Rp : f64).
Definition step64 (P : f64) (o : op64) : f64 :=
  match o with
  | Meas64 Q => kf64_correct fone Q P
  | Noise64 Pn Rp => kf64_predict fone Pn Rp fzero fzero P
  end.
(** what each operation is given *)
Definition op_ok (P : f64) (o : op64) : Prop :=
  match o with
  | Meas64 Q => finite Q = true /\ bpow radix2 (-100) <= val Q <= bpow radix2 100
  | Noise64 Pn Rp => finite Pn = true /\ finite Rp = true /\ 0 <= val Rp <= bpow radix2 400 /\ Rabs (val Pn) <= bpow radix2 200
      /\ val (step64 P (Noise64 Pn Rp)) <= bpow radix2 100
  end.
Fixpoint run_ok (P : f64) (l : list op64) : Prop :=
  match l with [] => True | o :: l' => op_ok P o /\ run_ok (step64 P o) l' end.
Lemma mul_0 x : finite x = true -> finite (fmul64 (fmul64 fzero fzero) x) = true /\ val (fmul64 (fmul64 fzero fzero) x) = 0.
Proof. destruct x; try discriminate; intros _; split; reflexivity. Qed.
Lemma noise_step (P Pn Rp : f64) : finite P = true -> 0 <= val P <= bpow radix2 100 -> finite Pn = true -> finite Rp = true ->
  0 <= val Rp <= bpow radix2 400 -> Rabs (val Pn) <= bpow radix2 200 -> nonneg64 (step64 P (Noise64 Pn Rp)).
Proof.
  intros FP Hp Fn Fr Hr Hn. simpl. unfold kf64_predict. destruct one_ok as [F0 V0]. pose proof (fmt_val P) as Fp.
  assert (bpow radix2 100 <= big) as B2 by (apply bpow_le; lia). assert (bpow radix2 200 * bpow radix2 400 = bpow radix2 600) as B3 by (rewrite <- bpow_plus; reflexivity).
  assert (bpow radix2 600 * bpow radix2 200 = bpow radix2 800) as B4 by (rewrite <- bpow_plus; reflexivity).
  assert (bpow radix2 600 <= big) as B5 by (apply bpow_le; lia). assert (bpow radix2 800 <= big) as B6 by (apply bpow_le; lia).
  assert (bpow radix2 100 + bpow radix2 800 <= bpow radix2 801) as B7.
  { change 801%Z with (800 + 1)%Z. rewrite (bpow_plus radix2 800 1). change (bpow radix2 1) with 2. assert (bpow radix2 100 <= bpow radix2 800) by (apply bpow_le; lia). lra. }
  assert (bpow radix2 801 <= big) as B8 by (apply bpow_le; lia).
  destruct (mul_ok fone P F0 FP) as [F1 V1]. { rewrite V0, Rmult_1_l, Rabs_pos_eq; lra. }
  rewrite V0, Rmult_1_l, (rnd_id _ Fp) in V1.
  destruct (mul_ok (fmul64 fone P) fone F1 F0) as [F2 V2]. { rewrite V0, V1, Rmult_1_r, Rabs_pos_eq; lra. }
  rewrite V0, V1, Rmult_1_r, (rnd_id _ Fp) in V2.
  destruct (sign_form (val Pn)) as (s & Hs & En). set (n := Rabs (val Pn)) in *. assert (0 <= n) as N0 by apply Rabs_pos.
  assert (s * s = 1) as Ss by (destruct Hs as [->| ->]; ring).
  assert (0 <= n * val Rp <= bpow radix2 600) as M1 by (split; [apply Rmult_le_pos; lra|rewrite <- B3; apply Rmult_le_compat; lra]).
  destruct (mul_ok Pn Rp Fn Fr) as [F3 V3]. { rewrite En, Rmult_assoc. apply sign_big; [exact Hs|]. rewrite Rabs_pos_eq; lra. }
  rewrite En, Rmult_assoc, (rnd_sign _ _ Hs) in V3.
  assert (0 <= rnd64 (n * val Rp) <= bpow radix2 600) as M2 by (split; [apply rnd_pos, M1|apply rnd_le_fmt; [apply fmt_bpow; lia|apply M1]]). set (m := rnd64 (n * val Rp)) in *.
  assert (val (fmul64 Pn Rp) * val Pn = m * n) as E4 by (rewrite V3, En; replace (s * m * (s * n)) with (s * s * (m * n)) by ring; rewrite Ss; ring).
  assert (0 <= m * n <= bpow radix2 800) as M3 by (split; [apply Rmult_le_pos; lra|rewrite <- B4; apply Rmult_le_compat; lra]).
  destruct (mul_ok (fmul64 Pn Rp) Pn F3 Fn) as [F4 V4]. { rewrite E4, Rabs_pos_eq; lra. }
  rewrite E4 in V4. assert (0 <= rnd64 (m * n) <= bpow radix2 800) as M4 by (split; [apply rnd_pos, M3|apply rnd_le_fmt; [apply fmt_bpow; lia|apply M3]]).
  destruct (add_ok _ _ F2 F4) as [F5 V5]. { rewrite V2, V4, Rabs_pos_eq; lra. }
  rewrite V2, V4 in V5. assert (0 <= rnd64 (val P + rnd64 (m * n)) <= bpow radix2 801) as M5 by (split; [apply rnd_pos; lra|apply rnd_le_fmt; [apply fmt_bpow; lia|lra]]).
  destruct (mul_0 fzero eq_refl) as [F6 V6]. destruct (add_ok _ _ F5 F6) as [F7 V7]. { rewrite V5, V6, Rplus_0_r, Rabs_pos_eq; lra. }
  split; [exact F7|]. rewrite V7, V5, V6, Rplus_0_r. apply rnd_pos, M5.
Qed.
(** every sequence of noise and direct measurements, of any length *)
Theorem C91_run_partial (l : list op64) (P : f64) : finite P = true -> 0 <= val P <= bpow radix2 100 -> run_ok P l ->
  nonneg64 (fold_left step64 l P) /\ val (fold_left step64 l P) <= bpow radix2 100.
Proof.
  revert P. induction l as [|o l IH]; intros P FP Hp Hr; cbn [fold_left]; [split; [split; [exact FP|lra]|lra]|]. destruct Hr as [Ho Hr].
  assert (nonneg64 (step64 P o) /\ val (step64 P o) <= bpow radix2 100) as [[F0 V0] V1].
  { destruct o as [Q|Pn Rp].
    - destruct Ho as [FQ Hq]. destruct one_ok as [F1 V1]. pose proof (bpow_gt_0 radix2 (-100)).
      destruct (C91_unit_partial fone Q P F1) as [N L]; auto; try lra; [rewrite V1; apply Rabs_R1|]. split; [exact N|]. change (val (kf64_correct fone Q P) <= bpow radix2 100). lra.
    - destruct Ho as (Fn & Fr & Hr' & Hn & Hle). split; [|exact Hle]. apply noise_step; auto. }
  apply IH; auto.
Qed.
(** P = 1, noise 1, a measurement with variance 1 *)
Example C91_nonvacuous : ordinary fone /\ 0 <= val fone /\ run_ok fone [Meas64 fone; Meas64 fone] /\ val (kf64_correct fone fone fone) = / 2.
Proof.
  destruct one_ok as [F V]. assert (bpow radix2 (-100) <= 1 <= bpow radix2 100) as H1 by (change 1 with (bpow radix2 0); split; apply bpow_le; lia).
  split; [split; [exact F|rewrite V, Rabs_R1; exact H1]|]. split; [rewrite V; lra|]. split; [cbn [run_ok op_ok]; rewrite V; auto|].
  set (h := @B754_finite 53 1024 false 4503599627370496 (-53) eq_refl). assert (kf64_correct fone fone fone = h) as -> by (apply B2SF_inj; vm_compute; reflexivity).
  unfold h, B2R, F2R. cbn [Fnum Fexp]. simpl cond_Zopp. change (bpow radix2 (-53)) with (/ IZR 9007199254740992). lra.
Qed.
