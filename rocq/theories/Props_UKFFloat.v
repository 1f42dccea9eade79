(** C112: the unscented filter's mean in double arithmetic. *)
From Coq Require Import ZArith Reals Lra Lia Bool List.
From Flocq Require Import Core IEEE754.BinarySingleNaN Sterbenz.
From Verif Require Import Outcome FB_Model FloatTime AngleFloat KF_Float MatFloat Props_MatFloat Props_MatFloatC UKFFloat.
Import ListNotations.
Open Scope R_scope.

(** ** Specification *)
(** what pow(0.001, 2) may return: 10^-6, right to 2^-50 relative *)
Definition millionth (a2 : f64) : Prop := finite a2 = true /\ Rabs (val a2 - / 1000000) <= / 1000000 * bpow radix2 (-50).
(** predict of a UKF with the default parameters whose sigma points are all sent to the vector X: x' is the
    new state (n states) *)
Definition ukf_still (n : nat) (X x' : fvec) : Prop := exists a2 lambda, millionth a2 /\ ukf64_lambda n a2 fzero lambda /\
  weighted_sum64 n (2 * n + 1) (ukf64_w_mean n lambda) (fun j _ => X j) x'.
Definition C112_claim : Prop := forall n X x', (1 <= n)%nat -> ukf_still n X x' -> forall j, (j < n)%nat -> finite (X j) = true -> val (x' j) = val (X j).

(** ** Lemmas *)
Lemma norm_ok z e : fmt64 (F2R (Float radix2 z e)) -> Rabs (F2R (Float radix2 z e)) < bpow radix2 1024 ->
  finite (binary_normalize 53 1024 prec64_gt_0 prec64_lt mode_NE z e false) = true /\ val (binary_normalize 53 1024 prec64_gt_0 prec64_lt mode_NE z e false) = F2R (Float radix2 z e).
Proof.
  intros F H. pose proof (binary_normalize_correct 53 1024 prec64_gt_0 prec64_lt mode_NE z e false) as C. simpl round_mode in C. cbv zeta in C.
  rewrite (rnd_id _ F) in C. rewrite Rlt_bool_true in C by exact H. split; apply C.
Qed.
Lemma f_of_nat_ok n : (Z.of_nat n < 65536)%Z -> finite (f_of_nat n) = true /\ val (f_of_nat n) = INR n.
Proof.
  intros H. assert (B : (Z.abs (Z.of_nat n) <= 2 ^ 53)%Z) by (rewrite Z.abs_eq by lia; transitivity 65536%Z; [lia|vm_compute; discriminate]).
  assert (E : F2R (Float radix2 (Z.of_nat n) 0) = INR n) by (rewrite INR_IZR_INZ; unfold F2R; cbn [Fnum Fexp]; change (bpow radix2 0) with 1; ring).
  unfold f_of_nat. rewrite <- E. apply norm_ok.
  - pose proof (grid_fmt 0 (Z.of_nat n) ltac:(lia) B) as G. change (bpow radix2 (-0)) with 1 in G. rewrite Rmult_1_r, <- INR_IZR_INZ in G. rewrite E. exact G.
  - rewrite E, Rabs_pos_eq by apply pos_INR. apply Rle_lt_trans with (bpow radix2 16); [|apply bpow_lt; lia]. rewrite INR_IZR_INZ. change (bpow radix2 16) with (IZR 65536). apply IZR_le. lia.
Qed.
Lemma fhalf_ok : finite fhalf = true /\ val fhalf = / 2.
Proof.
  split; [vm_compute; reflexivity|]. assert (E : F2R (Float radix2 1 (-1)) = / 2) by (unfold F2R; cbn [Fnum Fexp]; change (bpow radix2 (-1)) with (/ 2); ring).
  unfold fhalf. rewrite <- E. apply norm_ok.
  - rewrite E. pose proof (grid_fmt 1 1 ltac:(lia) ltac:(vm_compute; discriminate)) as G. change (bpow radix2 (-1)) with (/ 2) in G. rewrite Rmult_1_l in G. exact G.
  - rewrite E, Rabs_pos_eq by lra. apply Rlt_trans with (bpow radix2 0); [change (bpow radix2 0) with 1; lra|apply bpow_lt; lia].
Qed.
Lemma tiny_small : tiny <= / 1000000000000000000000000000000000000.
Proof. apply Rle_trans with (bpow radix2 (-120)); [apply bpow_le; lia|]. change (bpow radix2 (-120)) with (bpow radix2 (Z.opp 120)); rewrite (bpow_opp radix2 120). apply Rinv_le_contravar; [lra|]. change (bpow radix2 120) with (IZR (2 ^ 120)). apply IZR_le. vm_compute. discriminate. Qed.
Lemma big_large : 1000000000000 <= big.
Proof. apply Rle_trans with (bpow radix2 40); [change (bpow radix2 40) with (IZR (2 ^ 40)); apply IZR_le; vm_compute; discriminate|apply bpow_le; lia]. Qed.

(** ** The weights *)
Lemma lambda_ok n a2 lambda : (1 <= Z.of_nat n < 65536)%Z -> millionth a2 -> ukf64_lambda n a2 fzero lambda ->
  finite lambda = true /\ - INR n <= val lambda <= - INR n / 2 /\ 99 / 100 * / 1000000 * INR n <= INR n + val lambda <= 101 / 100 * / 1000000 * INR n.
Proof.
  intros Hn [Fa Va] HL. destruct (f_of_nat_ok n ltac:(lia)) as [Fn Vn]. pose proof uu_val as UV. pose proof uu_pos as U. pose proof tiny_pos as T. pose proof tiny_small as TS. pose proof big_large as BL.
  assert (N1 : 1 <= INR n) by (change 1 with (INR 1); apply le_INR; lia). assert (N2 : INR n <= 65536) by (rewrite INR_IZR_INZ; apply IZR_le; lia).
  set (N := INR n) in *.
  assert (Va' : 999 / 1000 * / 1000000 <= val a2 <= 1001 / 1000 * / 1000000).
  { apply Rabs_le_inv in Va. assert (bpow radix2 (-50) <= / 1000). { change (bpow radix2 (-50)) with (bpow radix2 (Z.opp 50)); rewrite (bpow_opp radix2 50). apply Rinv_le_contravar; [lra|]. change (bpow radix2 50) with (IZR (2 ^ 50)). apply IZR_le. vm_compute. discriminate. } lra. }
  assert (Fz : finite (fadd64 (f_of_nat n) fzero) = true /\ val (fadd64 (f_of_nat n) fzero) = N).
  { destruct (add_ok (f_of_nat n) fzero Fn eq_refl) as [F V]. { rewrite Vn. change (val fzero) with 0. rewrite Rplus_0_r, Rabs_pos_eq; lra. }
    split; [exact F|]. rewrite V, Vn. change (val fzero) with 0. rewrite Rplus_0_r. rewrite <- Vn. apply rnd_id, fmt_val. }
  destruct Fz as [Fz Vz].
  assert (P : 999 / 1000 * / 1000000 * N <= val a2 * N <= 1001 / 1000 * / 1000000 * N) by (split; apply Rmult_le_compat_r; lra).
  assert (FN : fmt64 N) by (rewrite <- Vn; apply fmt_val).
  assert (FN2 : fmt64 (N / 2)).
  { unfold N. pose proof (grid_fmt 1 (Z.of_nat n) ltac:(lia)) as G. change (bpow radix2 (-1)) with (/ 2) in G. rewrite <- INR_IZR_INZ in G. apply G. rewrite Z.abs_eq by lia. transitivity 65536%Z; [lia|vm_compute; discriminate]. }
  assert (K : exists q, finite lambda = true /\ val lambda = rnd64 (q - N) /\ Rabs (q - val a2 * N) <= uu * (val a2 * N) + tiny).
  { destruct HL as [-> | ->].
    - destruct (mul_ok a2 (fadd64 (f_of_nat n) fzero) Fa Fz) as [Fm Vm]; [rewrite Vz, Rabs_pos_eq; lra|]. rewrite Vz in Vm.
      pose proof (rnd_err (val a2 * N)) as E. rewrite (Rabs_pos_eq (val a2 * N)) in E by lra. rewrite <- Vm in E.
      destruct (sub_ok (fmul64 a2 (fadd64 (f_of_nat n) fzero)) (f_of_nat n) Fm Fn) as [Fs Vs].
      { rewrite Vn. apply Rabs_le_inv in E. apply Rabs_le. assert (uu * (val a2 * N) <= 1) by nra. lra. }
      exists (val (fmul64 a2 (fadd64 (f_of_nat n) fzero))). split; [exact Fs|]. split; [rewrite Vs, Vn; reflexivity|exact E].
    - exists (val a2 * N). assert (Fo : finite (fopp64 (f_of_nat n)) = true) by (unfold fopp64; rewrite is_finite_Bopp; exact Fn).
      assert (Fm : finite (ffma64 a2 (fadd64 (f_of_nat n) fzero) (fopp64 (f_of_nat n))) = true).
      { apply fma_ok; auto. rewrite Vz, opp_val, Vn. apply Rabs_le. lra. }
      destruct (fma_inv _ _ _ Fm) as (_ & _ & _ & Vm). split; [exact Fm|]. split; [rewrite Vm, Vz, opp_val, Vn; reflexivity|].
      rewrite Rminus_eq_0, Rabs_R0. assert (0 <= uu * (val a2 * N)) by (apply Rmult_le_pos; lra). lra. }
  destruct K as (q & F & V & Eq). apply Rabs_le_inv in Eq.
  assert (Q1 : uu * (val a2 * N) <= / 1000000000000 * N) by (rewrite UV; nra).
  assert (Q2 : tiny <= / 1000000000000 * N) by (apply Rle_trans with (/ 1000000000000 * 1); [lra|apply Rmult_le_compat_l; lra]).
  split; [exact F|]. assert (B : - N <= q - N <= - N / 2) by lra.
  assert (L : - N <= val lambda <= - N / 2).
  { rewrite V. split; [apply rnd_ge_fmt; [apply generic_format_opp, FN|apply B]|]. apply rnd_le_fmt; [|apply B]. replace (- N / 2) with (- (N / 2)) by field. apply generic_format_opp, FN2. }
  split; [exact L|]. pose proof (rnd_err (q - N)) as E. rewrite <- V in E. assert (Rabs (q - N) <= N) by (apply Rabs_le; lra).
  assert (uu * Rabs (q - N) <= uu * N) by (apply Rmult_le_compat_l; lra). apply Rabs_le_inv in E. assert (uu * N <= / 1000000000000 * N) by (rewrite UV; apply Rmult_le_compat_r; lra). lra.
Qed.
(** the weights of the mean: finite, their sum is 1 up to 2^-31, their absolute values add up to 2.1 million *)
Theorem C112_weights n a2 lambda : (1 <= Z.of_nat n < 65536)%Z -> millionth a2 -> ukf64_lambda n a2 fzero lambda ->
  let w := ukf64_w_mean n lambda in
  (forall i, finite (w i) = true) /\
  Rabs (rsum (2 * n + 1) (fun i => val (w i)) - 1) <= bpow radix2 (-31) /\
  rsum (2 * n + 1) (fun i => Rabs (val (w i))) <= 2050000.
Proof.
  intros Hn Ha HL w. destruct (lambda_ok n a2 lambda Hn Ha HL) as (Fl & L1 & L2). destruct (f_of_nat_ok n ltac:(lia)) as [Fn Vn].
  assert (N1 : 1 <= INR n) by (change 1 with (INR 1); apply le_INR; lia). assert (N2 : INR n <= 65536) by (rewrite INR_IZR_INZ; apply IZR_le; lia).
  pose proof uu_val as UV. pose proof uu_pos as U. pose proof tiny_pos as T. pose proof tiny_small as TS. pose proof big_large as BL.
  destruct fhalf_ok as [Fh Vh].
  (* n + lambda is exact *)
  assert (C : finite (fadd64 (f_of_nat n) lambda) = true /\ val (fadd64 (f_of_nat n) lambda) = INR n + val lambda).
  { destruct (add_ok (f_of_nat n) lambda Fn Fl) as [F V]; [rewrite Vn; apply Rabs_le; lra|]. split; [exact F|]. rewrite V, Vn. apply rnd_id.
    replace (INR n + val lambda) with (INR n - (- val lambda)) by ring. apply sterbenz; [apply (fexp_correct 53 1024 eq_refl)|apply (fexp_monotone 53 1024)|rewrite <- Vn; apply fmt_val|apply generic_format_opp, fmt_val|lra]. }
  destruct C as [Fc Vc]. set (N := INR n) in *. set (c := N + val lambda) in *. assert (C0 : 0 < c) by lra.
  assert (LC : - val lambda / c <= 1011000). { apply (Rmult_le_reg_r c); [exact C0|]. unfold Rdiv. rewrite Rmult_assoc, Rinv_l by lra. lra. }
  assert (LC0 : 0 <= - val lambda / c) by (apply Rmult_le_pos; [lra|left; apply Rinv_0_lt_compat; exact C0]).
  assert (NC : N / c <= 1011000). { apply (Rmult_le_reg_r c); [exact C0|]. unfold Rdiv. rewrite Rmult_assoc, Rinv_l by lra. lra. }
  assert (NC0 : 0 < N / c) by (apply Rmult_lt_0_compat; [lra|apply Rinv_0_lt_compat; exact C0]).
  assert (S1 : - val lambda / c = N / c - 1) by (unfold c; field; fold c; lra).
  destruct (div_ok lambda (fadd64 (f_of_nat n) lambda) Fl) as [F0 V0]; [rewrite Vc; lra|rewrite Vc, Rabs_left1; [|replace (val lambda / c) with (- (- val lambda / c)) by (field; lra); lra]; replace (- (val lambda / c)) with (- val lambda / c) by (field; lra); lra|].
  assert (HC : / 2 / c = N / c * (/ 2 * / N)) by (field; lra).
  assert (IN : / 65536 <= / N) by (apply Rinv_le_contravar; lra). assert (IN1 : / N <= 1) by (rewrite <- Rinv_1; apply Rinv_le_contravar; lra).
  assert (H0 : 0 < / 2 / c) by (apply Rmult_lt_0_compat; [lra|apply Rinv_0_lt_compat; exact C0]).
  assert (H1 : / 2 / c <= 1011000) by (rewrite HC; nra).
  destruct (div_ok fhalf (fadd64 (f_of_nat n) lambda) Fh) as [F1 V1]; [rewrite Vc; lra|rewrite Vc, Vh, Rabs_pos_eq; lra|].
  rewrite Vc in V0, V1. rewrite Vh in V1.
  assert (W : forall i, w (S i) = fdiv64 fhalf (fadd64 (f_of_nat n) lambda)) by reflexivity.
  assert (W0 : w 0%nat = fdiv64 lambda (fadd64 (f_of_nat n) lambda)) by reflexivity.
  assert (RS : forall (f : f64 -> R), rsum (2 * n + 1) (fun i => f (w i)) = f (w 0%nat) + 2 * N * f (w 1%nat)).
  { intros f. assert (G : forall k, rsum (k + 1) (fun i => f (w i)) = f (w 0%nat) + INR k * f (w 1%nat)).
    { induction k as [|k IH]; [simpl; ring|]. cbn [Nat.add rsum]. rewrite IH, S_INR, Nat.add_1_r. rewrite !W. ring. }
    rewrite G, mult_INR. simpl (INR 2). unfold N. ring. }
  pose proof (rnd_err (val lambda / c)) as E0. pose proof (rnd_err (/ 2 / c)) as E1. rewrite <- V0, <- W0 in E0. rewrite <- V1, <- (W 0%nat) in E1.
  assert (A0 : Rabs (val lambda / c) = - val lambda / c) by (rewrite Rabs_left1; [field; lra|replace (val lambda / c) with (- (- val lambda / c)) by (field; lra); lra]).
  rewrite A0 in E0. rewrite (Rabs_pos_eq (/ 2 / c)) in E1 by lra.
  set (w0 := val (w 0%nat)) in *. set (w1 := val (w 1%nat)) in *. apply Rabs_le_inv in E0, E1.
  assert (D : 2 * N * (/ 2 / c) = N / c) by (field; lra).
  assert (E1' : - (uu * (N / c) + 2 * N * tiny) <= 2 * N * w1 - N / c <= uu * (N / c) + 2 * N * tiny).
  { rewrite <- D at 2 3. replace (uu * (N / c) + 2 * N * tiny) with (2 * N * (uu * (/ 2 / c) + tiny)) by (rewrite <- D; ring).
    replace (2 * N * w1 - 2 * N * (/ 2 / c)) with (2 * N * (w1 - / 2 / c)) by ring.
    replace (- (2 * N * (uu * (/ 2 / c) + tiny))) with (2 * N * - (uu * (/ 2 / c) + tiny)) by ring. split; apply Rmult_le_compat_l; lra. }
  assert (U1 : uu * (- val lambda / c) <= uu * 1011000) by (apply Rmult_le_compat_l; lra). assert (U2 : uu * (N / c) <= uu * 1011000) by (apply Rmult_le_compat_l; lra).
  assert (TN : 2 * N * tiny <= 131072 * tiny) by (apply Rmult_le_compat_r; lra).
  assert (P1 : 0 <= w1) by (unfold w1; rewrite (W 0%nat), V1; apply rnd_pos; lra).
  split; [|split].
  - intros [|i]; [exact F0|exact F1].
  - rewrite (RS val). fold w0 w1. assert (B31 : bpow radix2 (-31) = 4194304 * uu).
    { unfold uu. change (-31)%Z with (-53 + 22)%Z. rewrite bpow_plus. change (bpow radix2 22) with 4194304. ring. }
    rewrite B31. assert (TT : 131073 * tiny <= 1000 * uu) by (rewrite UV; lra). apply Rabs_le. replace (val lambda / c) with (- (- val lambda / c)) in E0 by (field; lra). rewrite S1 in *. split; lra.
  - rewrite (RS (fun z => Rabs (val z))). fold w0 w1. rewrite (Rabs_pos_eq w1) by exact P1.
    assert (Rabs w0 <= 1011001). { replace (val lambda / c) with (- (- val lambda / c)) in E0 by (field; lra). assert (uu * 1011000 <= / 10) by (rewrite UV; lra). apply Rabs_le. lra. }
    assert (uu * 1011000 <= / 10) by (rewrite UV; lra). lra.
Qed.

Lemma rsum_first n f : (0 < n)%nat -> rsum n (fun i => if Nat.eqb i 0 then f i else 0) = f 0%nat.
Proof.
  intros H. destruct n as [|n]; [lia|]. clear H. induction n as [|n IH]; [cbn [rsum Nat.eqb]; ring|].
  change (rsum (S n) (fun i => if Nat.eqb i 0 then f i else 0) + 0 = f 0%nat). rewrite IH. ring.
Qed.
Lemma b31 : bpow radix2 (-31) = 4194304 * uu.
Proof. unfold uu. change (-31)%Z with (-53 + 22)%Z. rewrite bpow_plus. change (bpow radix2 22) with 4194304. ring. Qed.
(** the weights of the covariance: those of the mean but for the first, and together 1 + (1 - alpha^2 + beta) up to 2^-29 *)
Theorem C112_cov_weights n a2 beta lambda : (1 <= Z.of_nat n < 65536)%Z -> millionth a2 -> ukf64_lambda n a2 fzero lambda -> finite beta = true -> Rabs (val beta) <= 1000 ->
  let w := ukf64_w_cov n lambda a2 beta in
  (forall i, finite (w i) = true) /\ (forall i, w (S i) = ukf64_w_mean n lambda (S i)) /\
  Rabs (rsum (2 * n + 1) (fun i => val (w i)) - (1 + (1 - val a2 + val beta))) <= bpow radix2 (-29).
Proof.
  intros Hn Ha HL Fb Bb. destruct (C112_weights n a2 lambda Hn Ha HL) as (FW & SW & AW). cbv zeta. set (wm := ukf64_w_mean n lambda) in *.
  destruct Ha as [Fa Va]. assert (A2 : 0 <= val a2 <= 1).
  { assert (bpow radix2 (-50) <= 1) by (change 1 with (bpow radix2 0); apply bpow_le; lia). apply Rabs_le_inv in Va. pose proof (bpow_gt_0 radix2 (-50)). lra. }
  assert (Hq : (0 < 2 * n + 1)%nat) by lia. pose proof uu_pos as U. pose proof uu_val as UV. pose proof big_large as BL.
  assert (B0 : Rabs (val (wm 0%nat)) <= 2050000).
  { eapply Rle_trans; [|exact AW]. rewrite <- (rsum_first (2 * n + 1) (fun i => Rabs (val (wm i))) Hq) at 1. apply rsum_le. intros k _. destruct (Nat.eqb k 0); [lra|apply Rabs_pos]. }
  destruct (add_ok (wm 0%nat) fone (FW 0%nat) eq_refl) as [F1 V1]; [rewrite (proj2 one_ok); apply Rabs_le_inv in B0; apply Rabs_le; lra|]. rewrite (proj2 one_ok) in V1.
  pose proof (rnd_err_plus (val (wm 0%nat)) (val fone) (fmt_val _) (fmt_val _)) as E1. rewrite (proj2 one_ok), <- V1 in E1. set (w0 := val (wm 0%nat)) in *. set (s1 := fadd64 (wm 0%nat) fone) in *.
  assert (D1 : Rabs (val s1 - (w0 + 1)) <= uu * 2050001). { eapply Rle_trans; [exact E1|]. apply Rmult_le_compat_l; [lra|]. apply Rabs_le_inv in B0. apply Rabs_le. lra. }
  assert (D1' : uu * 2050001 <= 1) by (rewrite UV; lra). apply Rabs_le_inv in B0, D1, Bb.
  destruct (sub_ok s1 a2 F1 Fa) as [F2 V2]; [apply Rabs_le; lra|].
  pose proof (rnd_err_plus (val s1) (- val a2) (fmt_val _) (generic_format_opp _ _ _ (fmt_val _))) as E2. change (val s1 + - val a2) with (val s1 - val a2) in E2. rewrite <- V2 in E2. set (s2 := fsub64 s1 a2) in *.
  assert (D2 : Rabs (val s2 - (val s1 - val a2)) <= uu * 2050003). { eapply Rle_trans; [exact E2|]. apply Rmult_le_compat_l; [lra|]. apply Rabs_le. lra. }
  assert (D2' : uu * 2050003 <= 1) by (rewrite UV; lra). apply Rabs_le_inv in D2.
  destruct (add_ok s2 beta F2 Fb) as [F3 V3]; [apply Rabs_le; lra|].
  pose proof (rnd_err_plus (val s2) (val beta) (fmt_val _) (fmt_val _)) as E3. rewrite <- V3 in E3. set (s3 := fadd64 s2 beta) in *.
  assert (D3 : Rabs (val s3 - (val s2 + val beta)) <= uu * 2051005). { eapply Rle_trans; [exact E3|]. apply Rmult_le_compat_l; [lra|]. apply Rabs_le. lra. } apply Rabs_le_inv in D3.
  split; [intros [|i]; [exact F3|exact (FW (S i))]|]. split; [reflexivity|].
  assert (R : rsum (2 * n + 1) (fun i => val (ukf64_w_cov n lambda a2 beta i)) = rsum (2 * n + 1) (fun i => val (wm i)) + (val s3 - w0)).
  { rewrite <- (rsum_first (2 * n + 1) (fun _ => val s3 - w0) Hq), <- rsum_plus. apply rsum_ext. intros [|k] _; cbn [Nat.eqb]; [unfold w0|cbn [ukf64_w_cov]; fold wm; ring].
    change (val s3 = val (wm 0%nat) + (val s3 - val (wm 0%nat))). ring. }
  rewrite R. apply Rabs_le_inv in SW. rewrite b31 in SW. assert (b29 : bpow radix2 (-29) = 16777216 * uu) by (unfold uu; change (-29)%Z with (-53 + 24)%Z; rewrite bpow_plus; change (bpow radix2 24) with 16777216; ring).
  rewrite b29. apply Rabs_le. lra.
Qed.

(** ** The mean *)
Lemma grow_lin k : INR k * uu <= / 2 -> grow k <= 1 + 2 * (INR k * uu).
Proof.
  intros H. pose proof uu_pos as U.
  assert (G : forall j, INR j * uu < 1 -> grow j * (1 - INR j * uu) <= 1).
  { induction j as [|j IH]; intros Hj; [simpl; unfold grow; simpl; lra|]. rewrite S_INR in *. rewrite grow_S. pose proof (grow_ge1 j) as G1. pose proof (pos_INR j) as P.
    assert (Q : (1 + uu) * (1 - (INR j + 1) * uu) <= 1 - INR j * uu) by nra.
    assert (Q2 : grow j * ((1 + uu) * (1 - (INR j + 1) * uu)) <= grow j * (1 - INR j * uu)) by (apply Rmult_le_compat_l; lra).
    assert (I : INR j * uu < 1) by nra. specialize (IH I). lra. }
  specialize (G k ltac:(lra)). pose proof (pos_INR k) as K. set (t := INR k * uu) in *. assert (T : 0 <= t) by (apply Rmult_le_pos; lra).
  apply (Rmult_le_reg_r (1 - t)); [lra|]. assert (0 <= t * (1 - 2 * t)) by (apply Rmult_le_pos; lra). lra.
Qed.
Lemma count_ok n : (1 <= Z.of_nat n < 65536)%Z -> 1 <= INR (2 * n + 1) <= 131071 /\ INR (2 * n + 1) = 2 * INR n + 1 /\ 1 <= INR n <= 65535.
Proof.
  intros H. rewrite !INR_IZR_INZ. rewrite Nat2Z.inj_add, Nat2Z.inj_mul, plus_IZR, mult_IZR. change (IZR (Z.of_nat 2)) with 2. change (IZR (Z.of_nat 1)) with 1.
  assert (1 <= IZR (Z.of_nat n)) by (apply IZR_le; lia). assert (IZR (Z.of_nat n) <= 65535) by (apply IZR_le; lia). lra.
Qed.
Lemma b1074 : bpow radix2 (-1074) = 2 * tiny.
Proof. unfold tiny. change (-1074)%Z with (1 + -1075)%Z. rewrite bpow_plus. reflexivity. Qed.

(** x' is the mean of the sigma points X by the weights, within (2n+1) 2^-31 of the largest of them *)
Theorem C112_mean_partial n a2 lambda (X : fmat) x' j M : (1 <= Z.of_nat n < 65536)%Z -> millionth a2 -> ukf64_lambda n a2 fzero lambda ->
  weighted_sum64 n (2 * n + 1) (ukf64_w_mean n lambda) X x' -> (j < n)%nat ->
  (forall i, (i < 2 * n + 1)%nat -> finite (X j i) = true /\ Rabs (val (X j i)) <= M) -> M <= bpow radix2 900 ->
  finite (x' j) = true /\
  Rabs (val (x' j) - rsum (2 * n + 1) (fun i => val (ukf64_w_mean n lambda i) * val (X j i)))
    <= INR (2 * n + 1) * (bpow radix2 (-31) * M + bpow radix2 (-1074)).
Proof.
  intros Hn Ha HL HS Hj HX HM. destruct (C112_weights n a2 lambda Hn Ha HL) as (FW & _ & SW). set (w := ukf64_w_mean n lambda) in *.
  specialize (HS j Hj). destruct (count_ok n Hn) as (K1 & _ & _). set (k := (2 * n + 1)%nat) in *.
  pose proof uu_pos as U. pose proof uu_val as UV. pose proof tiny_pos as T.
  assert (Ku : INR k * uu <= / 2) by (apply Rle_trans with (131071 * uu); [apply Rmult_le_compat_r; lra|rewrite UV; lra]).
  pose proof (grow_lin k Ku) as G. pose proof (grow_ge1 k) as G1.
  assert (M0 : 0 <= M). { destruct (HX 0%nat ltac:(lia)) as [_ B]. pose proof (Rabs_pos (val (X j 0%nat))). lra. }
  assert (MG : mag (pairs k w (X j)) <= 2050000 * M).
  { rewrite mag_pairs. apply Rle_trans with (rsum k (fun i => Rabs (val (w i)) * M)).
    - apply rsum_le. intros i Hi. apply Rmult_le_compat_l; [apply Rabs_pos|apply HX, Hi].
    - rewrite rsum_scal_r. apply Rmult_le_compat_r; assumption. }
  pose proof (mag_pos (pairs k w (X j))) as MP.
  assert (KT : INR k * tiny * grow k <= INR k * (2 * tiny)).
  { rewrite Rmult_assoc. apply Rmult_le_compat_l; [lra|]. rewrite (Rmult_comm 2). apply Rmult_le_compat_l; lra. }
  assert (AF : all_finite (pairs k w (X j))).
  { apply Forall_forall. intros q Hq. unfold pairs in Hq. apply in_map_iff in Hq. destruct Hq as (i & <- & Hi). apply in_seq in Hi. split; [apply FW|apply HX; lia]. }
  assert (F : finite (x' j) = true).
  { apply (sums_finite _ _ HS AF). unfold bound. rewrite pairs_length.
    assert (Q : grow k * mag (pairs k w (X j)) <= 2 * (2050000 * M)) by (apply Rmult_le_compat; lra).
    assert (KT2 : INR k * (2 * tiny) <= 131071 * (2 * tiny)) by (apply Rmult_le_compat_r; lra).
    assert (B1 : bpow radix2 900 * 8388608 <= big) by (change 8388608 with (bpow radix2 23); rewrite <- bpow_plus; apply bpow_le; lia).
    assert (B2 : 131071 * (2 * tiny) <= bpow radix2 900).
    { apply Rle_trans with (bpow radix2 18 * tiny); [change (bpow radix2 18) with 262144; lra|]. unfold tiny. rewrite <- bpow_plus. apply bpow_le. lia. }
    assert (0 < bpow radix2 900) by apply bpow_gt_0. lra. }
  split; [exact F|]. destruct (sums_error _ _ HS F) as (_ & N). unfold near in N. rewrite pairs_length, ex_pairs in N.
  eapply Rle_trans; [exact N|]. rewrite b31, b1074.
  assert (Q : (grow k - 1) * mag (pairs k w (X j)) <= 2 * (INR k * uu) * (2050000 * M)) by (apply Rmult_le_compat; lra).
  assert (Q2 : INR k * (4100000 * uu * M) <= INR k * (4194304 * uu * M)).
  { apply Rmult_le_compat_l; [lra|]. apply Rmult_le_compat_r; [exact M0|]. apply Rmult_le_compat_r; lra. }
  lra.
Qed.
(** all sigma points at X: the new state is X up to (2n+2) 2^-31 relative *)
Theorem C112_still_partial n X x' j : (1 <= Z.of_nat n < 65536)%Z -> ukf_still n X x' -> (j < n)%nat -> finite (X j) = true -> Rabs (val (X j)) <= bpow radix2 900 ->
  finite (x' j) = true /\ Rabs (val (x' j) - val (X j)) <= INR (2 * n + 2) * bpow radix2 (-31) * Rabs (val (X j)) + INR (2 * n + 1) * bpow radix2 (-1074).
Proof.
  intros Hn (a2 & lambda & Ha & HL & HS) Hj FX BX.
  destruct (C112_mean_partial n a2 lambda (fun j _ => X j) x' j (Rabs (val (X j))) Hn Ha HL HS Hj) as [F B]; [intros i _; split; [exact FX|apply Rle_refl]|exact BX|].
  split; [exact F|]. destruct (C112_weights n a2 lambda Hn Ha HL) as (_ & SW & _). rewrite rsum_scal_r in B. set (s := rsum (2 * n + 1) (fun i => val (ukf64_w_mean n lambda i))) in *.
  set (v := val (X j)) in *. pose proof (Rabs_step (val (x' j)) (s * v) v) as St. replace (s * v - v) with ((s - 1) * v) in St by ring. rewrite Rabs_mult in St.
  assert (Q : Rabs (s - 1) * Rabs v <= bpow radix2 (-31) * Rabs v) by (apply Rmult_le_compat_r; [apply Rabs_pos|exact SW]).
  replace (INR (2 * n + 2)) with (INR (2 * n + 1) + 1) by (rewrite <- S_INR; f_equal; lia). lra.
Qed.
(** k predictions: the drift *)
Theorem C112_drift_partial n (x : nat -> fvec) k j : (1 <= Z.of_nat n < 65536)%Z -> (j < n)%nat ->
  (forall i, (i < k)%nat -> ukf_still n (x i) (x (S i)) /\ finite (x i j) = true /\ Rabs (val (x i j)) <= bpow radix2 900) ->
  let e := INR (2 * n + 2) * bpow radix2 (-31) in
  Rabs (val (x k j) - val (x 0%nat j)) <= ((1 + e) ^ k - 1) * Rabs (val (x 0%nat j)) + INR k * INR (2 * n + 1) * bpow radix2 (-1074) * (1 + e) ^ k.
Proof.
  intros Hn Hj H e. assert (E0 : 0 <= e) by (apply Rmult_le_pos; [apply pos_INR|apply bpow_ge_0]).
  set (t := INR (2 * n + 1) * bpow radix2 (-1074)). assert (T0 : 0 <= t) by (apply Rmult_le_pos; [apply pos_INR|apply bpow_ge_0]).
  replace (INR k * INR (2 * n + 1) * bpow radix2 (-1074) * (1 + e) ^ k) with (INR k * t * (1 + e) ^ k) by (unfold t; ring).
  set (v0 := val (x 0%nat j)). induction k as [|k IH]; [unfold v0; rewrite Rminus_eq_0, Rabs_R0; simpl; lra|].
  specialize (IH ltac:(intros i Hi; apply H; lia)). destruct (H k ltac:(lia)) as (Hs & Fk & Bk). destruct (C112_still_partial n _ _ j Hn Hs Hj Fk Bk) as [_ B]. fold e t in B.
  pose proof (Rabs_step (val (x (S k) j)) (val (x k j)) v0) as S1. pose proof (Rabs_step (val (x k j)) v0 0) as S2. rewrite !Rminus_0_r in S2.
  set (d := Rabs (val (x k j) - v0)) in *. set (a := Rabs v0) in *. assert (A0 : 0 <= a) by apply Rabs_pos. set (q := (1 + e) ^ k) in *.
  assert (Q1 : 1 <= q) by (apply pow_R1_Rle; lra). rewrite S_INR. change ((1 + e) ^ S k) with ((1 + e) * q). pose proof (pos_INR k) as K.
  assert (M1 : e * Rabs (val (x k j)) <= e * (d + a)) by (apply Rmult_le_compat_l; lra).
  assert (M2 : (1 + e) * d <= (1 + e) * ((q - 1) * a + INR k * t * q)) by (apply Rmult_le_compat_l; lra).
  assert (M3 : t <= t * ((1 + e) * q)). { rewrite <- (Rmult_1_r t) at 1. apply Rmult_le_compat_l; [exact T0|]. nra. }
  replace (((1 + e) * q - 1) * a + (INR k + 1) * t * ((1 + e) * q)) with ((1 + e) * ((q - 1) * a + INR k * t * q) + e * a + t * ((1 + e) * q)) by ring. lra.
Qed.

(** ** The covariance after predict, whatever the sigma points, weights, dimensions *)
(** the exact value and the size of its terms; q sigma points X, mean x *)
Definition exact_ukf_cov p m q (w : fvec) (X : fmat) (x : fvec) (Pn Rp V Rc : fmat) (a b : nat) : R :=
  sandwich p (vals Pn) (vals Rp) a b + sandwich m (vals V) (vals Rc) a b + rsum q (fun i => val (w i) * (val (X a i) - val (x a)) * (val (X b i) - val (x b))).
Definition size_ukf_cov p m q (w : fvec) (X : fmat) (x : fvec) (Pn Rp V Rc : fmat) (a b : nat) : R :=
  sandwich p (mags Pn) (mags Rp) a b + sandwich m (mags V) (mags Rc) a b + rsum q (fun i => Rabs (val (w i)) * Rabs (val (X a i) - val (x a)) * Rabs (val (X b i) - val (x b))).
Definition rounding_ukf_cov p m q w X x Pn Rp V Rc (a b : nat) : R :=
  ((1 + bpow radix2 (-53)) ^ (2 * (p + m + q) + 2) - 1) * size_ukf_cov p m q w X x Pn Rp V Rc a b
  + bpow radix2 (-1075) * (1 + bpow radix2 (-53)) ^ (2 * (p + m + q) + 2) * INR (p + m + q)
    * (1 + (rsum p (mags Pn b) + rsum m (mags V b) + rsum q (fun i => Rabs (val (X b i) - val (x b))))).
Lemma rsum_diff n f g D : (forall k, (k < n)%nat -> Rabs (f k - g k) <= D k) -> Rabs (rsum n f - rsum n g) <= rsum n D.
Proof.
  intros H. replace (rsum n f - rsum n g) with (rsum n (fun k => f k - g k)).
  - eapply Rle_trans; [apply rsum_abs|]. apply rsum_le. exact H.
  - clear H. induction n as [|n IH]; cbn [rsum]; [ring|]. rewrite IH. ring.
Qed.
Theorem C112_covariance_partial r q p m w X x Pn Rp V Rc cov' a b :
  ukf64_cov r q p m w X x Pn Rp V Rc cov' -> (a < r)%nat -> (b < r)%nat -> finite (cov' a b) = true ->
  Rabs (val (cov' a b) - exact_ukf_cov p m q w X x Pn Rp V Rc a b) <= rounding_ukf_cov p m q w X x Pn Rp V Rc a b.
Proof.
  intros (PR & VR & H2 & H3 & H) Hi Hj F. cbv zeta in H. specialize (H a b Hi Hj). cbv beta in H. set (dx := fun c i => fsub64 (X c i) (x c)) in *.
  change (pairs q (fun i => fmul64 (w i) (fsub64 (X a i) (x a))) (fun i => fsub64 (X b i) (x b))) with (pairs q (fun i => fmul64 (w i) (dx a i)) (dx b)) in H.
  set (t2 := fun k => (pairs p (Pn a) (fun l => Rp l k), PR a k, Pn b k) : item).
  set (t3 := fun k => (pairs m (V a) (fun l => Rc l k), VR a k, V b k) : item).
  set (t1 := fun k => ([(w k, dx a k)], fmul64 (w k) (dx a k), dx b k) : item).
  set (L := items p t2 ++ items m t3 ++ items q t1). set (K := (p + m + q)%nat).
  assert (EL : pairs p (PR a) (Pn b) ++ pairs m (VR a) (V b) ++ pairs q (fun i => fmul64 (w i) (dx a i)) (dx b) = outer L).
  { unfold L, outer, items, pairs. rewrite !map_app, !map_map. reflexivity. }
  assert (HL : Forall (inner_ok K) L).
  { unfold L. rewrite !Forall_app. unfold items. rewrite !Forall_map, !Forall_forall. unfold K.
    repeat split; intros; match goal with H : In ?k (seq 0 _) |- _ => apply in_seq in H end; cbn [t1 t2 t3 it_l it_c fst snd];
      [apply H2; lia|rewrite pairs_length; lia|apply H3; lia|rewrite pairs_length; lia|constructor|cbn [length]; lia]. }
  rewrite EL in H. pose proof (sums_error2 _ _ _ HL H F) as B.
  (* the deviations are finite and near the exact ones *)
  assert (DX : forall i, (i < q)%nat -> (finite (dx a i) = true /\ Rabs (val (dx a i) - (val (X a i) - val (x a))) <= uu * Rabs (val (X a i) - val (x a))) /\
                                        (finite (dx b i) = true /\ Rabs (val (dx b i) - (val (X b i) - val (x b))) <= uu * Rabs (val (X b i) - val (x b)))).
  { intros i Hiq. destruct (sums_error _ _ H F) as (AF & _). rewrite <- EL in AF. unfold all_finite in AF. rewrite !Forall_app in AF. destruct AF as (_ & _ & AF). rewrite Forall_forall in AF.
    destruct (AF (fmul64 (w i) (dx a i), dx b i)) as [A1 A2]. { unfold pairs. apply in_map_iff. exists i. split; [reflexivity|]. apply in_seq. lia. }
    cbn [fst snd] in A1, A2. apply mul_inv in A1. destruct A1 as (_ & A1 & _).
    assert (S : forall c, finite (dx c i) = true -> Rabs (val (dx c i) - (val (X c i) - val (x c))) <= uu * Rabs (val (X c i) - val (x c))).
    { intros c Fc. destruct (sub_inv _ _ Fc) as (_ & _ & E). unfold dx. rewrite E. replace (val (X c i) - val (x c)) with (val (X c i) + - val (x c)) by ring. apply rnd_err_plus; [apply fmt_val|apply generic_format_opp, fmt_val]. }
    auto. }
  assert (Ll : length L = K) by (unfold L, K; rewrite !app_length, !items_length; lia). rewrite Ll in B.
  destruct (items_ex2 q t1) as (a1 & b1 & c1), (items_ex2 p t2) as (a2 & b2 & c2), (items_ex2 m t3) as (a3 & b3 & c3).
  destruct (items_app2 (items p t2) (items m t3 ++ items q t1)) as (e1 & e2 & e3). destruct (items_app2 (items m t3) (items q t1)) as (f1 & f2 & f3).
  fold L in e1, e2, e3. rewrite f1, a1, a2, a3 in e1. rewrite f2, b1, b2, b3 in e2. rewrite f3, c1, c2, c3 in e3.
  set (da := fun i => val (X a i) - val (x a)) in *. set (db := fun i => val (X b i) - val (x b)) in *.
  set (n1 := sandwich p (vals Pn) (vals Rp) a b). set (n2 := sandwich m (vals V) (vals Rc) a b).
  set (z1 := sandwich p (mags Pn) (mags Rp) a b). set (z2 := sandwich m (mags V) (mags Rc) a b).
  set (dS := rsum q (fun i => val (w i) * val (dx a i) * val (dx b i))). set (dM := rsum q (fun i => Rabs (val (w i)) * Rabs (val (dx a i)) * Rabs (val (dx b i)))).
  set (xS := rsum q (fun i => val (w i) * da i * db i)). set (xM := rsum q (fun i => Rabs (val (w i)) * Rabs (da i) * Rabs (db i))).
  assert (EX : ex2 L = n1 + n2 + dS).
  { rewrite e1, Rplus_assoc. unfold n1, n2, dS, sandwich, vals. f_equal; [|f_equal]; apply rsum_ext; intros k _; cbn [t1 t2 t3 it_l it_b fst snd]; [rewrite ex_pairs; reflexivity|rewrite ex_pairs; reflexivity|cbn [ex fst snd]; ring]. }
  assert (EY : mag2 L = z1 + z2 + dM).
  { rewrite e2, Rplus_assoc. unfold z1, z2, dM, sandwich, mags. f_equal; [|f_equal]; apply rsum_ext; intros k _; cbn [t1 t2 t3 it_l it_b fst snd]; [rewrite mag_pairs; reflexivity|rewrite mag_pairs; reflexivity|cbn [mag fst snd]; rewrite Rabs_mult; ring]. }
  assert (EZ : abs2 L = rsum p (mags Pn b) + rsum m (mags V b) + rsum q (fun i => Rabs (val (dx b i)))) by (rewrite e3; unfold mags; rewrite Rplus_assoc; reflexivity).
  rewrite EX, EY, EZ in B. clear EX EY EZ e1 e2 e3 f1 f2 f3 a1 a2 a3 b1 b2 b3 c1 c2 c3.
  pose proof uu_pos as U. pose proof tiny_pos as T.
  assert (AB : forall u v, Rabs (u - v) <= uu * Rabs v -> Rabs u <= (1 + uu) * Rabs v).
  { intros u v Hv. pose proof (Rabs_step u v 0) as S. rewrite !Rminus_0_r in S. lra. }
  assert (D1 : Rabs (dS - xS) <= ((1 + uu) * (1 + uu) - 1) * xM).
  { unfold dS, xS, xM. rewrite <- rsum_scal. apply rsum_diff. intros i Hq. destruct (DX i Hq) as [[_ Da] [_ Db]]. fold (da i) in Da. fold (db i) in Db.
    pose proof (AB _ _ Db) as Db'. set (ea := val (dx a i)) in *. set (eb := val (dx b i)) in *. set (W := val (w i)).
    replace (W * ea * eb - W * da i * db i) with (W * ((ea - da i) * eb + da i * (eb - db i))) by ring. rewrite Rabs_mult.
    replace (((1 + uu) * (1 + uu) - 1) * (Rabs W * Rabs (da i) * Rabs (db i))) with (Rabs W * (uu * Rabs (da i) * ((1 + uu) * Rabs (db i)) + Rabs (da i) * (uu * Rabs (db i)))) by ring.
    apply Rmult_le_compat_l; [apply Rabs_pos|]. eapply Rle_trans; [apply Rabs_triang|]. rewrite !Rabs_mult. apply Rplus_le_compat; apply Rmult_le_compat; try apply Rabs_pos; try assumption. apply Rle_refl. }
  assert (D2 : dM <= (1 + uu) * (1 + uu) * xM).
  { unfold dM, xM. rewrite <- rsum_scal. apply rsum_le. intros i Hq. destruct (DX i Hq) as [[_ Da] [_ Db]]. fold (da i) in Da. fold (db i) in Db. apply AB in Da, Db.
    replace ((1 + uu) * (1 + uu) * (Rabs (val (w i)) * Rabs (da i) * Rabs (db i))) with (Rabs (val (w i)) * ((1 + uu) * Rabs (da i)) * ((1 + uu) * Rabs (db i))) by ring.
    apply Rmult_le_compat; [apply Rmult_le_pos; apply Rabs_pos|apply Rabs_pos| |exact Db]. apply Rmult_le_compat_l; [apply Rabs_pos|exact Da]. }
  assert (D3 : rsum q (fun i => Rabs (val (dx b i))) <= (1 + uu) * rsum q (fun i => Rabs (db i))).
  { rewrite <- rsum_scal. apply rsum_le. intros i Hq. destruct (DX i Hq) as [_ [_ Db]]. apply AB, Db. }
  assert (Z1 : 0 <= z1) by apply sandwich_mags_pos. assert (Z2 : 0 <= z2) by apply sandwich_mags_pos.
  assert (XM : 0 <= xM) by (apply rsum_pos; intros; repeat apply Rmult_le_pos; apply Rabs_pos).
  assert (R1 : 0 <= rsum p (mags Pn b)) by (apply rsum_pos; intros; apply Rabs_pos). assert (R2 : 0 <= rsum m (mags V b)) by (apply rsum_pos; intros; apply Rabs_pos).
  assert (R3 : 0 <= rsum q (fun i => Rabs (db i))) by (apply rsum_pos; intros; apply Rabs_pos).
  unfold exact_ukf_cov, rounding_ukf_cov, size_ukf_cov. fold n1 n2 z1 z2. change (rsum q (fun i => val (w i) * (val (X a i) - val (x a)) * (val (X b i) - val (x b)))) with xS.
  change (rsum q (fun i => Rabs (val (w i)) * Rabs (val (X a i) - val (x a)) * Rabs (val (X b i) - val (x b)))) with xM.
  change (rsum q (fun i => Rabs (val (X b i) - val (x b)))) with (rsum q (fun i => Rabs (db i))). fold K. fold uu. fold tiny.
  replace ((1 + uu) ^ (2 * K + 2)) with (grow (K + K) * ((1 + uu) * (1 + uu))) by (rewrite (pow_add (1 + uu) (2 * K) 2); replace (2 * K)%nat with (K + K)%nat by lia; unfold grow; ring).
  set (g := grow (K + K)) in *. assert (G : 1 <= g) by apply grow_ge1. set (h := (1 + uu) * (1 + uu)) in *. assert (H1 : 1 + uu <= h) by (unfold h; nra).
  set (k := INR K) in *. assert (K0 : 0 <= k) by apply pos_INR. set (r1 := rsum p (mags Pn b)) in *. set (r2 := rsum m (mags V b)) in *.
  set (r3 := rsum q (fun i => Rabs (db i))) in *. set (s3 := rsum q (fun i => Rabs (val (dx b i)))) in *.
  pose proof (Rabs_step (val (cov' a b)) (n1 + n2 + dS) (n1 + n2 + xS)) as St. replace (n1 + n2 + dS - (n1 + n2 + xS)) with (dS - xS) in St by ring.
  assert (P1 : (g - 1) * (z1 + z2 + dM) <= (g - 1) * (z1 + z2 + h * xM)) by (apply Rmult_le_compat_l; lra).
  assert (P2 : (g - 1) * (z1 + z2) <= (g * h - 1) * (z1 + z2)) by (apply Rmult_le_compat_r; [lra|]; assert (g * 1 <= g * h) by (apply Rmult_le_compat_l; lra); lra).
  assert (P3 : k * (r1 + r2 + s3) + k <= k * (h * (1 + (r1 + r2 + r3)))).
  { assert (r1 + r2 + s3 + 1 <= h * (1 + (r1 + r2 + r3))). { assert (1 * (r1 + r2) <= h * (r1 + r2)) by (apply Rmult_le_compat_r; lra). assert ((1 + uu) * r3 <= h * r3) by (apply Rmult_le_compat_r; lra). lra. }
    replace (k * (r1 + r2 + s3) + k) with (k * (r1 + r2 + s3 + 1)) by ring. apply Rmult_le_compat_l; lra. }
  assert (P4 : tiny * g * (k * (r1 + r2 + s3) + k) <= tiny * g * (k * (h * (1 + (r1 + r2 + r3))))) by (apply Rmult_le_compat_l; [apply Rmult_le_pos; lra|exact P3]).
  replace ((g * h - 1) * (z1 + z2 + xM) + tiny * (g * h) * k * (1 + (r1 + r2 + r3)))
    with ((g * h - 1) * (z1 + z2) + ((g - 1) * (h * xM) + (h - 1) * xM) + tiny * g * (k * (h * (1 + (r1 + r2 + r3))))) by ring.
  lra.
Qed.

(** ** With the default parameters a constant model moves the state *)
(** pow(0.001, 2) as the C library returns it *)
Definition w_a2 : f64 := binary_normalize 53 1024 prec64_gt_0 prec64_lt mode_NE 4722366482869645 (-72) false.
Definition w_lambda : f64 := fsub64 (fmul64 w_a2 (fadd64 (f_of_nat 2) fzero)) (f_of_nat 2).
Definition w_w : fvec := ukf64_w_mean 2 w_lambda.
(** the sum of the five columns, in order *)
Definition w_sum (v : f64) : f64 := fadd64 (fadd64 (fadd64 (fadd64 (fmul64 (w_w 0%nat) v) (fmul64 (w_w 1%nat) v)) (fmul64 (w_w 2%nat) v)) (fmul64 (w_w 3%nat) v)) (fmul64 (w_w 4%nat) v).
Lemma w_a2_ok : millionth w_a2.
Proof.
  assert (E : F2R (Float radix2 4722366482869645 (-72)) = 4722366482869645 / IZR (2 ^ 72)) by (unfold F2R; cbn [Fnum Fexp]; reflexivity).
  destruct (norm_ok 4722366482869645 (-72)) as [F V].
  - apply generic_format_F2R. cbn [Fnum Fexp]. intros _. unfold cexp. rewrite E.
    assert (M : Raux.mag radix2 (4722366482869645 / IZR (2 ^ 72)) = (-19)%Z :> Z); [|rewrite M; vm_compute; discriminate].
    apply mag_unique. rewrite Rabs_pos_eq by (apply Rmult_le_pos; [lra|left; apply Rinv_0_lt_compat; apply IZR_lt; reflexivity]).
    change (bpow radix2 (-19 - 1)) with (/ IZR (2 ^ 20)). change (bpow radix2 (-19)) with (/ IZR (2 ^ 19)).
    replace (IZR (2 ^ 72)) with 4722366482869645213696 by (apply f_equal; reflexivity). replace (IZR (2 ^ 20)) with 1048576 by (apply f_equal; reflexivity). replace (IZR (2 ^ 19)) with 524288 by (apply f_equal; reflexivity). lra.
  - rewrite E, Rabs_pos_eq by (apply Rmult_le_pos; [lra|left; apply Rinv_0_lt_compat; apply IZR_lt; reflexivity]). apply Rlt_trans with (bpow radix2 0); [|apply bpow_lt; lia].
    change (bpow radix2 0) with 1. replace (IZR (2 ^ 72)) with 4722366482869645213696 by (apply f_equal; reflexivity). lra.
  - split; [exact F|]. unfold w_a2. rewrite V, E. change (bpow radix2 (-50)) with (/ IZR (2 ^ 50)). replace (IZR (2 ^ 50)) with 1125899906842624 by (apply f_equal; reflexivity).
    replace (IZR (2 ^ 72)) with 4722366482869645213696 by (apply f_equal; reflexivity). apply Rabs_le. lra.
Qed.
Lemma w_still v : ukf_still 2 (fun _ => v) (fun _ => w_sum v).
Proof.
  exists w_a2, w_lambda. split; [exact w_a2_ok|]. split; [left; reflexivity|]. intros j _.
  unfold w_sum. fold w_w. change (pairs (2 * 2 + 1) w_w (fun _ => v)) with (((([(w_w 0%nat, v)] ++ [(w_w 1%nat, v)]) ++ [(w_w 2%nat, v)]) ++ [(w_w 3%nat, v)]) ++ [(w_w 4%nat, v)]).
  repeat apply sum_add; apply sum_prod.
Qed.
Theorem C112_refuted : ~ C112_claim.
Proof.
  intros H. specialize (H 2%nat _ _ ltac:(lia) (w_still fone) 0%nat ltac:(lia) eq_refl). cbv beta in H.
  assert (N : neg64 (fsub64 fone (w_sum fone)) = true) by (vm_compute; reflexivity). apply neg64_val in N.
  assert (Z : finite (fsub64 fone (w_sum fone)) = true) by (vm_compute; reflexivity). destruct (sub_inv _ _ Z) as (_ & _ & E). rewrite E, H in N.
  rewrite Rminus_eq_0, round_0 in N by apply valid_rnd_N. lra.
Qed.
(** the hypotheses of the bounds are met: n = 2 and the state (1, 1); and the covariance of one state after that *)
Definition w_dx : f64 := fsub64 fone (w_sum fone).
Definition w_t (i : nat) : f64 := fmul64 (fmul64 (ukf64_w_cov 2 w_lambda w_a2 (fz 2) i) w_dx) w_dx.
Definition w_cov' : f64 := fadd64 (fadd64 (fadd64 (fadd64 (w_t 0) (w_t 1)) (w_t 2)) (w_t 3)) (w_t 4).
Example C112_nonvacuous : (1 <= Z.of_nat 2 < 65536)%Z /\ ukf_still 2 (fun _ => fone) (fun _ => w_sum fone) /\ finite fone = true /\ Rabs (val fone) <= bpow radix2 900
  /\ finite (w_sum fone) = true /\ w_sum fone <> fone
  /\ (forall Pn Rp V Rc, ukf64_cov 1 5 0 0 (ukf64_w_cov 2 w_lambda w_a2 (fz 2)) (fun _ _ => fone) (fun _ => w_sum fone) Pn Rp V Rc (fun _ _ => w_cov')) /\ finite w_cov' = true.
Proof.
  split; [lia|]. split; [apply w_still|]. split; [reflexivity|]. split. { rewrite (proj2 one_ok), Rabs_R1. change 1 with (bpow radix2 0). apply bpow_le. lia. }
  split; [vm_compute; reflexivity|]. split.
  { intros E. assert (N : neg64 (fsub64 fone (w_sum fone)) = true) by (vm_compute; reflexivity). rewrite E in N. vm_compute in N. discriminate N. }
  split; [|vm_compute; reflexivity]. intros Pn Rp V Rc. exists (fun _ _ => fzero), (fun _ _ => fzero). split; [intros i j _ Hj; lia|]. split; [intros i j _ Hj; lia|]. cbv zeta. intros a b _ _.
  set (w := ukf64_w_cov 2 w_lambda w_a2 (fz 2)). unfold w_cov', w_t. fold w. fold w_dx.
  change (pairs 0 (fun _ : nat => fzero) (Pn b) ++ pairs 0 (fun _ : nat => fzero) (V b) ++ pairs 5 (fun i => fmul64 (w i) w_dx) (fun _ => w_dx))
    with (((([(fmul64 (w 0%nat) w_dx, w_dx)] ++ [(fmul64 (w 1%nat) w_dx, w_dx)]) ++ [(fmul64 (w 2%nat) w_dx, w_dx)]) ++ [(fmul64 (w 3%nat) w_dx, w_dx)]) ++ [(fmul64 (w 4%nat) w_dx, w_dx)]).
  repeat apply sum_add; apply sum_prod.
Qed.
