(** C116: any number of predictions of a Kalman filter or EKF in double arithmetic (IEEE binary64, to
    nearest even), whatever order the terms are added in and with or without fused multiply-add, compared
    with exact arithmetic.  Step k uses the matrices A k, B k, Pn k, Rp k, V k, Rc k and the control u k
    (for an EKF the Jacobians of that step). *)
From Coq Require Import ZArith Reals Lra Lia Bool List SpecFloat.
From Flocq Require Import Core IEEE754.BinarySingleNaN.
From Verif Require Import Outcome FB_Model FloatTime AngleFloat KF_Float MatFloat Props_MatFloat.
Import ListNotations.
Open Scope R_scope.

(** ** Specification: the same steps in exact arithmetic *)
Fixpoint exact_cov_run n p m (A Pn Rp V Rc : nat -> fmat) (P0 : rmat) (k : nat) : rmat :=
  match k with O => P0 | S k => fun i j =>
    sandwich n (vals (A k)) (exact_cov_run n p m A Pn Rp V Rc P0 k) i j
    + sandwich p (vals (Pn k)) (vals (Rp k)) i j + sandwich m (vals (V k)) (vals (Rc k)) i j end.
Fixpoint exact_state_run n m (A B : nat -> fmat) (u : nat -> fvec) (x0 : nat -> R) (k : nat) : nat -> R :=
  match k with O => x0 | S k => fun i =>
    rsum n (fun l => vals (A k) i l * exact_state_run n m A B u x0 k l) + rsum m (fun l => vals (B k) i l * val (u k l)) end.
(** the runs in doubles: covariance and state before step 0, 1, 2, ... *)
Definition cov_run n p m (A Pn Rp V Rc : nat -> fmat) (cov : nat -> fmat) : Prop :=
  forall k, predicted_cov n p m (A k) (cov k) (Pn k) (Rp k) (V k) (Rc k) (cov (S k)).
Definition state_run n m (A B : nat -> fmat) (u x : nat -> fvec) : Prop :=
  forall k, predicted_state n m (A k) (B k) (x k) (u k) (x (S k)).
(** errors so far, passed on by |A|, plus the rounding of this step *)
Fixpoint cov_error n p m (A Pn Rp V Rc cov : nat -> fmat) (k : nat) : rmat :=
  match k with O => fun _ _ => 0 | S k => fun i j =>
    sandwich n (mags (A k)) (cov_error n p m A Pn Rp V Rc cov k) i j + rounding n p m (A k) (cov k) (Pn k) (Rp k) (V k) (Rc k) i j end.

(** ** Lemmas *)
Lemma rsum_abs n f : Rabs (rsum n f) <= rsum n (fun i => Rabs (f i)).
Proof. induction n as [|n IH]; cbn [rsum]; [rewrite Rabs_R0; lra|]. eapply Rle_trans; [apply Rabs_triang|]. lra. Qed.
Lemma rsum_sub n f g : rsum n f - rsum n g = rsum n (fun i => f i - g i).
Proof. induction n as [|n IH]; cbn [rsum]; [ring|]. rewrite <- IH. ring. Qed.
(** sandwich of a difference *)
Lemma sandwich_sub q (B M N : rmat) i j : sandwich q B M i j - sandwich q B N i j = sandwich q B (fun a b => M a b - N a b) i j.
Proof.
  unfold sandwich. rewrite rsum_sub. apply rsum_ext. intros k _. rewrite <- Rmult_minus_distr_r, rsum_sub. f_equal. apply rsum_ext. intros l _. ring.
Qed.
Lemma sandwich_abs n B (M N : rmat) i j : (forall a b, (a < n)%nat -> (b < n)%nat -> Rabs (M a b) <= N a b) ->
  Rabs (sandwich n (vals B) M i j) <= sandwich n (mags B) N i j.
Proof.
  intros H. unfold sandwich. eapply Rle_trans; [apply rsum_abs|]. apply rsum_le. intros k Hk. rewrite Rabs_mult. unfold mags at 2, vals at 2.
  apply Rmult_le_compat_r; [apply Rabs_pos|]. eapply Rle_trans; [apply rsum_abs|]. apply rsum_le. intros l Hl. rewrite Rabs_mult. unfold mags, vals.
  apply Rmult_le_compat_l; [apply Rabs_pos|]. apply H; assumption.
Qed.
(** a matrix with entries up to e, and row sums up to r *)
Lemma sandwich_bound n B (N : rmat) e r i j : 0 <= e -> 0 <= r -> (forall a b, (a < n)%nat -> (b < n)%nat -> N a b <= e) ->
  rsum n (mags B i) <= r -> rsum n (mags B j) <= r -> sandwich n (mags B) N i j <= r * r * e.
Proof.
  intros E0 R0 H Hi Hj. unfold sandwich. apply Rle_trans with (rsum n (fun k => r * e * mags B j k)).
  - apply rsum_le. intros k Hk. apply Rmult_le_compat_r; [apply Rabs_pos|].
    apply Rle_trans with (rsum n (fun l => mags B i l * e)); [|rewrite rsum_scal_r; apply Rmult_le_compat_r; assumption].
    apply rsum_le. intros l Hl. apply Rmult_le_compat_l; [apply Rabs_pos|]. apply H; assumption.
  - rewrite rsum_scal. replace (r * r * e) with (r * e * r) by ring. apply Rmult_le_compat_l; [apply Rmult_le_pos; assumption|exact Hj].
Qed.

(** ** C116: the error after any number of predictions, whatever the matrices *)
Theorem C116_run_error_partial n p m A Pn Rp V Rc cov : cov_run n p m A Pn Rp V Rc cov -> (forall k, finite_mat n n (cov k)) ->
  forall k i j, (i < n)%nat -> (j < n)%nat ->
  Rabs (val (cov k i j) - exact_cov_run n p m A Pn Rp V Rc (vals (cov 0%nat)) k i j) <= cov_error n p m A Pn Rp V Rc cov k i j.
Proof.
  intros Run F. induction k as [|k IH]; intros i j Hi Hj.
  - cbn [exact_cov_run cov_error]. unfold vals. rewrite Rminus_diag_eq by reflexivity. rewrite Rabs_R0. lra.
  - cbn [exact_cov_run cov_error]. set (X := exact_cov_run n p m A Pn Rp V Rc (vals (cov 0%nat)) k) in *.
    pose proof (C109_error_partial n p m (A k) (cov k) (Pn k) (Rp k) (V k) (Rc k) (cov (S k)) i j (Run k) Hi Hj (F (S k) i j Hi Hj)) as E. unfold exact_cov in E.
    set (T2 := sandwich p (vals (Pn k)) (vals (Rp k)) i j) in *. set (T3 := sandwich m (vals (V k)) (vals (Rc k)) i j) in *.
    assert (D : Rabs (sandwich n (vals (A k)) (vals (cov k)) i j - sandwich n (vals (A k)) X i j) <= sandwich n (mags (A k)) (cov_error n p m A Pn Rp V Rc cov k) i j).
    { rewrite sandwich_sub. apply sandwich_abs. intros a b Ha Hb. apply IH; assumption. }
    replace (val (cov (S k) i j) - (sandwich n (vals (A k)) X i j + T2 + T3))
      with ((sandwich n (vals (A k)) (vals (cov k)) i j - sandwich n (vals (A k)) X i j) + (val (cov (S k) i j) - (sandwich n (vals (A k)) (vals (cov k)) i j + T2 + T3))) by ring.
    eapply Rle_trans; [apply Rabs_triang|]. lra.
Qed.

(** ** C116: a motion model that contracts (row sums of |A| at most r, r^2 <= 1 - theta) forgets its rounding errors:
    forever finite, forever bounded, forever within 2^-42 W / theta of exact arithmetic *)
Theorem C116_stable_partial n p m A Pn Rp V Rc cov r theta W : (n + p + m <= 500)%nat ->
  cov_run n p m A Pn Rp V Rc cov ->
  0 <= r -> r * r <= 1 - theta -> bpow radix2 (-39) <= theta -> bpow radix2 (-900) <= W <= bpow radix2 100 ->
  (forall k, upto_mat 100 n p (Pn k) /\ upto_mat 100 p p (Rp k) /\ upto_mat 100 n m (V k) /\ upto_mat 100 m m (Rc k)) ->
  (forall k, finite_mat n n (A k)) -> (forall k i, (i < n)%nat -> rsum n (mags (A k) i) <= r) ->
  (forall k i j, (i < n)%nat -> (j < n)%nat -> sandwich p (mags (Pn k)) (mags (Rp k)) i j + sandwich m (mags (V k)) (mags (Rc k)) i j <= theta / 2 * W) ->
  finite_mat n n (cov 0%nat) -> (forall i j, (i < n)%nat -> (j < n)%nat -> Rabs (val (cov 0%nat i j)) <= W) ->
  forall k i j, (i < n)%nat -> (j < n)%nat ->
    finite (cov k i j) = true /\ Rabs (val (cov k i j)) <= W /\
    Rabs (val (cov k i j) - exact_cov_run n p m A Pn Rp V Rc (vals (cov 0%nat)) k i j) <= bpow radix2 (-42) * W / theta.
Proof.
  intros HN Run R0 Rr Th HW U FA RA Nz F0 W0. set (g := bpow radix2 (-43)) in *.
  assert (G0 : 0 < g) by apply bpow_gt_0.
  assert (E42 : bpow radix2 (-42) = 2 * g) by (unfold g; change (-42)%Z with (1 + -43)%Z; rewrite bpow_plus; reflexivity).
  assert (E39 : bpow radix2 (-39) = 16 * g) by (unfold g; change (-39)%Z with (4 + -43)%Z; rewrite bpow_plus; change (bpow radix2 4) with 16; reflexivity).
  assert (G1 : g <= / 1024) by (unfold g; change (/ 1024) with (bpow radix2 (-10)); apply bpow_le; lia).
  rewrite E39 in Th. assert (T1 : theta <= 1) by nra. assert (R1 : r <= 1) by nra.
  assert (Wp : 0 < W) by (eapply Rlt_le_trans; [apply (bpow_gt_0 radix2 (-900))|apply HW]).
  (* underflow *)
  assert (TT : forall k j, (j < n)%nat -> bpow radix2 (-1065) * (1 + rows n p m (A k) (Pn k) (V k) j) <= g / 2 * W).
  { intros k j Hj. destruct (U k) as (U1 & _ & U3 & _).
    assert (Rs : forall q (M : fmat), (q <= 500)%nat -> upto_mat 100 n q M -> rsum q (mags M j) <= 500 * bpow radix2 100).
    { intros q M Hq UM. assert (I : INR q <= 500) by (replace 500 with (INR 500) by (simpl; lra); apply le_INR, Hq).
      apply Rle_trans with (INR q * bpow radix2 100); [|apply Rmult_le_compat_r; [apply bpow_ge_0|exact I]].
      assert (S' : forall z, (z <= q)%nat -> rsum z (mags M j) <= INR z * bpow radix2 100).
      { induction z as [|z IHz]; intros Hz; [cbn [rsum]; simpl; lra|]. cbn [rsum]. rewrite S_INR. specialize (IHz ltac:(lia)). pose proof (proj2 (UM j z Hj ltac:(lia))) as Q. unfold mags at 2. lra. }
      apply S'. lia. }
    pose proof (Rs p (Pn k) ltac:(lia) U1) as S1. pose proof (Rs m (V k) ltac:(lia) U3) as S2. pose proof (RA k j Hj) as S3. unfold rows.
    set (c := bpow radix2 100) in *. assert (C1 : 1 <= c) by (unfold c; change 1 with (bpow radix2 0); apply bpow_le; lia).
    apply Rle_trans with (bpow radix2 (-1065) * (bpow radix2 10 * c)).
    - apply Rmult_le_compat_l; [apply bpow_ge_0|]. change (bpow radix2 10) with 1024. lra.
    - unfold c. rewrite <- !bpow_plus. apply Rle_trans with (g / 2 * bpow radix2 (-900)).
      + unfold g, Rdiv. change (/ 2) with (bpow radix2 (-1)). rewrite <- !bpow_plus. apply bpow_le. lia.
      + apply Rmult_le_compat_l; [lra|apply HW]. }
  assert (UA : forall k, upto_mat 100 n n (A k)).
  { intros k i j Hi Hj. split; [apply FA; assumption|]. apply Rle_trans with (rsum n (mags (A k) i)).
    - assert (Sg : forall z, (j < z)%nat -> mags (A k) i j <= rsum z (mags (A k) i)).
      { induction z as [|z IHz]; intros Hz; [lia|]. cbn [rsum]. assert (P0 : forall y, 0 <= rsum y (mags (A k) i)) by (intros; apply rsum_pos; intros; apply Rabs_pos).
        destruct (Nat.eq_dec j z) as [->|D]; [pose proof (P0 z); lra|]. specialize (IHz ltac:(lia)). pose proof (Rabs_pos (val (A k i z))). unfold mags at 3. lra. }
      apply (Sg n Hj).
    - apply Rle_trans with 1; [pose proof (RA k i Hi); lra|]. change 1 with (bpow radix2 0). apply bpow_le. lia. }
  assert (Main : forall k, (forall i j, (i < n)%nat -> (j < n)%nat -> finite (cov k i j) = true /\ Rabs (val (cov k i j)) <= W) /\
     forall i j, (i < n)%nat -> (j < n)%nat -> Rabs (val (cov k i j) - exact_cov_run n p m A Pn Rp V Rc (vals (cov 0%nat)) k i j) <= 2 * g * W / theta).
  { induction k as [|k [IH1 IH2]].
    - split; [intros i j Hi Hj; split; [apply F0|apply W0]; assumption|]. intros i j _ _. cbn [exact_cov_run]. unfold vals. rewrite Rminus_diag_eq, Rabs_R0 by reflexivity.
      unfold Rdiv. apply Rmult_le_pos; [apply Rmult_le_pos; lra|]. left. apply Rinv_0_lt_compat. lra.
    - assert (Uc : upto_mat 100 n n (cov k)) by (intros i j Hi Hj; destruct (IH1 i j Hi Hj) as [Q1 Q2]; split; [exact Q1|]; eapply Rle_trans; [exact Q2|apply HW]).
      destruct (U k) as (U1 & U2 & U3 & U4).
      assert (St : forall i j, (i < n)%nat -> (j < n)%nat -> finite (cov (S k) i j) = true /\
         Rabs (val (cov (S k) i j) - exact_cov n p m (A k) (cov k) (Pn k) (Rp k) (V k) (Rc k) i j) <= g * ((1 - theta / 2) * W) + g / 2 * W /\
         Rabs (exact_cov n p m (A k) (cov k) (Pn k) (Rp k) (V k) (Rc k) i j) <= (1 - theta / 2) * W).
      { intros i j Hi Hj. destruct (C109_numbers_partial n p m (A k) (cov k) (Pn k) (Rp k) (V k) (Rc k) (cov (S k)) i j HN (UA k) Uc U1 U2 U3 U4 (Run k) Hi Hj) as [F E].
        fold g in E. split; [exact F|]. pose proof (Nz k i j Hi Hj) as Nk. pose proof (TT k j Hj) as Tk.
        assert (S1 : sandwich n (mags (A k)) (mags (cov k)) i j <= (1 - theta) * W).
        { apply Rle_trans with (r * r * W); [|apply Rmult_le_compat_r; lra]. apply sandwich_bound; try lra; [|apply RA; exact Hi|apply RA; exact Hj]. intros a b Ha Hb. apply (proj2 (IH1 a b Ha Hb)). }
        assert (Sz : size_cov n p m (A k) (cov k) (Pn k) (Rp k) (V k) (Rc k) i j <= (1 - theta / 2) * W) by (unfold size_cov; lra).
        split.
        - eapply Rle_trans; [exact E|]. apply Rplus_le_compat; [apply Rmult_le_compat_l; lra|exact Tk].
        - eapply Rle_trans; [|exact Sz]. unfold exact_cov, size_cov.
          pose proof (sandwich_abs n (A k) (vals (cov k)) (mags (cov k)) i j ltac:(intros; unfold vals, mags; lra)) as Q1.
          pose proof (sandwich_abs p (Pn k) (vals (Rp k)) (mags (Rp k)) i j ltac:(intros; unfold vals, mags; lra)) as Q2.
          pose proof (sandwich_abs m (V k) (vals (Rc k)) (mags (Rc k)) i j ltac:(intros; unfold vals, mags; lra)) as Q3.
          eapply Rle_trans; [apply Rabs_triang|]. eapply Rle_trans; [apply Rplus_le_compat_r, Rabs_triang|]. lra. }
      assert (gW : g * W <= theta / 16 * W) by (apply Rmult_le_compat_r; lra).
      assert (gtW : 0 <= g * (theta / 2 * W)) by (repeat apply Rmult_le_pos; lra).
      assert (tW : 0 < theta * W) by (apply Rmult_lt_0_compat; lra).
      assert (gW0 : 0 < g * W) by (apply Rmult_lt_0_compat; lra).
      split.
      + intros i j Hi Hj. destruct (St i j Hi Hj) as (F & E & Z). split; [exact F|].
        replace (val (cov (S k) i j)) with ((val (cov (S k) i j) - exact_cov n p m (A k) (cov k) (Pn k) (Rp k) (V k) (Rc k) i j) + exact_cov n p m (A k) (cov k) (Pn k) (Rp k) (V k) (Rc k) i j) by ring.
        eapply Rle_trans; [apply Rabs_triang|]. lra.
      + intros i j Hi Hj. destruct (St i j Hi Hj) as (F & E & Z). cbn [exact_cov_run]. set (X := exact_cov_run n p m A Pn Rp V Rc (vals (cov 0%nat)) k) in *.
        assert (D : Rabs (sandwich n (vals (A k)) (vals (cov k)) i j - sandwich n (vals (A k)) X i j) <= (1 - theta) * (2 * g * W / theta)).
        { assert (Q0 : 0 <= 2 * g * W / theta) by (unfold Rdiv; apply Rmult_le_pos; [lra|left; apply Rinv_0_lt_compat; lra]).
          rewrite sandwich_sub. eapply Rle_trans; [apply (sandwich_abs n (A k) _ (fun _ _ => 2 * g * W / theta)); intros a b Ha Hb; apply IH2; assumption|].
          apply Rle_trans with (r * r * (2 * g * W / theta)); [|apply Rmult_le_compat_r; lra]. apply sandwich_bound; try lra; try (intros; lra); apply RA; assumption. }
        unfold exact_cov in E. set (T2 := sandwich p (vals (Pn k)) (vals (Rp k)) i j) in *. set (T3 := sandwich m (vals (V k)) (vals (Rc k)) i j) in *.
        replace (val (cov (S k) i j) - (sandwich n (vals (A k)) X i j + T2 + T3))
          with ((sandwich n (vals (A k)) (vals (cov k)) i j - sandwich n (vals (A k)) X i j) + (val (cov (S k) i j) - (sandwich n (vals (A k)) (vals (cov k)) i j + T2 + T3))) by ring.
        eapply Rle_trans; [apply Rabs_triang|]. replace (2 * g * W / theta) with ((1 - theta) * (2 * g * W / theta) + 2 * g * W) by (field; lra). lra. }
  intros k i j Hi Hj. destruct (Main k) as [M1 M2]. rewrite E42. destruct (M1 i j Hi Hj) as [Q1 Q2]. split; [exact Q1|]. split; [exact Q2|]. apply M2; assumption.
Qed.
(** the same for the state A x + B u of a Kalman filter *)
Theorem C116_stable_state_partial n m A B u x r theta W : (n + m <= 500)%nat -> state_run n m A B u x ->
  0 <= r <= 1 - theta -> bpow radix2 (-39) <= theta -> bpow radix2 (-900) <= W <= bpow radix2 100 ->
  (forall k, finite_mat n n (A k)) -> (forall k i, (i < n)%nat -> rsum n (mags (A k) i) <= r) ->
  (forall k, upto_mat 100 n m (B k) /\ forall l, (l < m)%nat -> upto 100 (u k l)) ->
  (forall k i, (i < n)%nat -> rsum m (fun l => mags (B k) i l * Rabs (val (u k l))) <= theta / 2 * W) ->
  (forall i, (i < n)%nat -> finite (x 0%nat i) = true /\ Rabs (val (x 0%nat i)) <= W) ->
  forall k i, (i < n)%nat ->
    finite (x k i) = true /\ Rabs (val (x k i)) <= W /\
    Rabs (val (x k i) - exact_state_run n m A B u (fun i => val (x 0%nat i)) k i) <= bpow radix2 (-42) * W / theta.
Proof.
  intros HN Run [R0 Rr] Th HW FA RA U Nz W0. set (g := bpow radix2 (-43)) in *.
  assert (G0 : 0 < g) by apply bpow_gt_0.
  assert (E42 : bpow radix2 (-42) = 2 * g) by (unfold g; change (-42)%Z with (1 + -43)%Z; rewrite bpow_plus; reflexivity).
  assert (E39 : bpow radix2 (-39) = 16 * g) by (unfold g; change (-39)%Z with (4 + -43)%Z; rewrite bpow_plus; change (bpow radix2 4) with 16; reflexivity).
  assert (G1 : g <= / 1024) by (unfold g; change (/ 1024) with (bpow radix2 (-10)); apply bpow_le; lia).
  rewrite E39 in Th. assert (Wp : 0 < W) by (eapply Rlt_le_trans; [apply (bpow_gt_0 radix2 (-900))|apply HW]).
  assert (Tn : INR (n + m) * bpow radix2 (-1075) * (1 + bpow radix2 (-53)) ^ (n + m) <= g / 2 * W).
  { fold uu. fold (grow (n + m)). pose proof (grow_small (n + m) ltac:(lia)) as Gr. fold g in Gr. pose proof (grow_ge1 (n + m)) as Gr1.
    assert (I : INR (n + m) <= 500) by (replace 500 with (INR 500) by (simpl; lra); apply le_INR, HN). pose proof (pos_INR (n + m)) as I0.
    apply Rle_trans with (bpow radix2 10 * bpow radix2 (-1075)).
    - change (bpow radix2 10) with 1024. rewrite Rmult_assoc, (Rmult_comm (bpow radix2 (-1075))), <- Rmult_assoc. apply Rmult_le_compat_r; [apply bpow_ge_0|].
      apply Rle_trans with (500 * 2); [apply Rmult_le_compat; lra|lra].
    - rewrite <- bpow_plus. apply Rle_trans with (g / 2 * bpow radix2 (-900)).
      + unfold g, Rdiv. change (/ 2) with (bpow radix2 (-1)). rewrite <- !bpow_plus. apply bpow_le. lia.
      + apply Rmult_le_compat_l; [lra|apply HW]. }
  assert (UA : forall k, upto_mat 100 n n (A k)).
  { intros k i j Hi Hj. split; [apply FA; assumption|]. apply Rle_trans with (rsum n (mags (A k) i)).
    - assert (Sg : forall z, (j < z)%nat -> mags (A k) i j <= rsum z (mags (A k) i)).
      { induction z as [|z IHz]; intros Hz; [lia|]. cbn [rsum]. assert (P0 : forall y, 0 <= rsum y (mags (A k) i)) by (intros; apply rsum_pos; intros; apply Rabs_pos).
        destruct (Nat.eq_dec j z) as [->|D]; [pose proof (P0 z); lra|]. specialize (IHz ltac:(lia)). pose proof (Rabs_pos (val (A k i z))). unfold mags at 3. lra. }
      apply (Sg n Hj).
    - apply Rle_trans with 1; [pose proof (RA k i Hi); lra|]. change 1 with (bpow radix2 0). apply bpow_le. lia. }
  assert (gW : g * W <= theta / 16 * W) by (apply Rmult_le_compat_r; lra).
  assert (gtW : 0 <= g * (theta / 2 * W)) by (repeat apply Rmult_le_pos; lra).
  assert (tW : 0 < theta * W) by (apply Rmult_lt_0_compat; lra).
  assert (gW0 : 0 < g * W) by (apply Rmult_lt_0_compat; lra).
  assert (Main : forall k, (forall i, (i < n)%nat -> finite (x k i) = true /\ Rabs (val (x k i)) <= W) /\
     forall i, (i < n)%nat -> Rabs (val (x k i) - exact_state_run n m A B u (fun i => val (x 0%nat i)) k i) <= 2 * g * W / theta).
  { induction k as [|k [IH1 IH2]].
    - split; [intros i Hi; apply W0; assumption|]. intros i _. cbn [exact_state_run]. rewrite Rminus_diag_eq, Rabs_R0 by reflexivity.
      unfold Rdiv. apply Rmult_le_pos; [lra|]. left. apply Rinv_0_lt_compat. lra.
    - destruct (U k) as (UB & Uu).
      set (xx := fun i => rsum n (fun l => vals (A k) i l * val (x k l)) + rsum m (fun l => vals (B k) i l * val (u k l))).
      assert (St : forall i, (i < n)%nat -> finite (x (S k) i) = true /\
         Rabs (val (x (S k) i) - xx i) <= g * ((1 - theta / 2) * W) + g / 2 * W /\ Rabs (xx i) <= (1 - theta / 2) * W).
      { intros i Hi. pose proof (Run k) as Rk. assert (F : finite (x (S k) i) = true).
        { destruct Rk as (Ax & Bu & H). destruct (H i Hi) as (H1 & H2 & Ex). rewrite Ex.
          apply (upto_sums 100 100 (pairs n (A k i) (x k) ++ pairs m (B k i) (u k))); try lia; [rewrite app_length, !pairs_length; lia| |apply sum_add; assumption].
          rewrite Forall_app. split; apply upto_pairs; intros l Hl.
          - split; [apply UA; assumption|]. destruct (IH1 l Hl) as [Q1 Q2]. split; [exact Q1|]. eapply Rle_trans; [exact Q2|apply HW].
          - split; [apply UB; assumption|apply Uu; exact Hl]. }
        split; [exact F|]. pose proof (C109_state_partial n m (A k) (B k) (x k) (u k) (x (S k)) i Rk Hi F) as E. fold (xx i) in E.
        assert (S1 : rsum n (fun l => mags (A k) i l * Rabs (val (x k l))) <= (1 - theta) * W).
        { apply Rle_trans with (rsum n (fun l => mags (A k) i l * W)).
          - apply rsum_le. intros l Hl. apply Rmult_le_compat_l; [apply Rabs_pos|]. apply (proj2 (IH1 l Hl)).
          - rewrite rsum_scal_r. apply Rmult_le_compat_r; [lra|]. pose proof (RA k i Hi). apply Rle_trans with r; assumption. }
        pose proof (Nz k i Hi) as Nk.
        assert (P1 : 0 <= rsum n (fun l => mags (A k) i l * Rabs (val (x k l)))) by (apply rsum_pos; intros; apply Rmult_le_pos; apply Rabs_pos).
        assert (P2 : 0 <= rsum m (fun l => mags (B k) i l * Rabs (val (u k l)))) by (apply rsum_pos; intros; apply Rmult_le_pos; apply Rabs_pos).
        split.
        - eapply Rle_trans; [exact E|]. apply Rplus_le_compat; [|exact Tn]. fold uu. fold (grow (n + m)). pose proof (grow_small (n + m) ltac:(lia)) as Gr. fold g in Gr. pose proof (grow_ge1 (n + m)).
          apply Rmult_le_compat; lra.
        - unfold xx. eapply Rle_trans; [apply Rabs_triang|].
          assert (Q : forall z (a b : nat -> R), Rabs (rsum z (fun l => a l * b l)) <= rsum z (fun l => Rabs (a l) * Rabs (b l))).
          { intros z a b. eapply Rle_trans; [apply rsum_abs|]. apply rsum_le. intros l _. rewrite Rabs_mult. lra. }
          pose proof (Q n (fun l => vals (A k) i l) (fun l => val (x k l))) as Q1. pose proof (Q m (fun l => vals (B k) i l) (fun l => val (u k l))) as Q2.
          unfold mags in *. unfold vals in *. lra. }
      split.
      + intros i Hi. destruct (St i Hi) as (F & E & Z). split; [exact F|]. replace (val (x (S k) i)) with ((val (x (S k) i) - xx i) + xx i) by ring.
        eapply Rle_trans; [apply Rabs_triang|]. lra.
      + intros i Hi. destruct (St i Hi) as (F & E & Z). cbn [exact_state_run]. set (X := exact_state_run n m A B u (fun i => val (x 0%nat i)) k) in *.
        assert (Q0 : 0 <= 2 * g * W / theta) by (unfold Rdiv; apply Rmult_le_pos; [lra|left; apply Rinv_0_lt_compat; lra]).
        assert (D : Rabs (rsum n (fun l => vals (A k) i l * val (x k l)) - rsum n (fun l => vals (A k) i l * X l)) <= (1 - theta) * (2 * g * W / theta)).
        { rewrite rsum_sub. eapply Rle_trans; [apply rsum_abs|]. apply Rle_trans with (rsum n (fun l => mags (A k) i l * (2 * g * W / theta))).
          - apply rsum_le. intros l Hl. rewrite <- Rmult_minus_distr_l, Rabs_mult. unfold mags, vals. apply Rmult_le_compat_l; [apply Rabs_pos|]. apply IH2. exact Hl.
          - rewrite rsum_scal_r. apply Rmult_le_compat_r; [exact Q0|]. pose proof (RA k i Hi). apply Rle_trans with r; assumption. }
        unfold xx in E. set (T2 := rsum m (fun l => vals (B k) i l * val (u k l))) in *.
        replace (val (x (S k) i) - (rsum n (fun l => vals (A k) i l * X l) + T2))
          with ((rsum n (fun l => vals (A k) i l * val (x k l)) - rsum n (fun l => vals (A k) i l * X l)) + (val (x (S k) i) - (rsum n (fun l => vals (A k) i l * val (x k l)) + T2))) by ring.
        eapply Rle_trans; [apply Rabs_triang|]. replace (2 * g * W / theta) with ((1 - theta) * (2 * g * W / theta) + 2 * g * W) by (field; lra). lra. }
  intros k i Hi. destruct (Main k) as [M1 M2]. rewrite E42. destruct (M1 i Hi) as [Q1 Q2]. split; [exact Q1|]. split; [exact Q2|]. apply M2; assumption.
Qed.

(** ** C116 as a user would want it, and why it fails: a variance of 2^53 that should grow by 1 in every step *)
Definition C116_claim : Prop := forall n p m A Pn Rp V Rc cov, cov_run n p m A Pn Rp V Rc cov -> (forall k, finite_mat n n (cov k)) ->
  (forall k, A k = A 0%nat /\ Pn k = Pn 0%nat /\ Rp k = Rp 0%nat /\ V k = V 0%nat /\ Rc k = Rc 0%nat) ->
  exists e, forall k i j, (i < n)%nat -> (j < n)%nat -> Rabs (val (cov k i j) - exact_cov_run n p m A Pn Rp V Rc (vals (cov 0%nat)) k i j) <= e.
Definition cst (x : f64) : fmat := fun _ _ => x.
Lemma one_state_run : cov_run 1 1 0 (fun _ => cst (fz 1)) (fun _ => cst (fz 1)) (fun _ => cst (fz 1)) (fun _ => cst (fz 1)) (fun _ => cst (fz 1)) (fun _ => cst (fz (2 ^ 53))).
Proof.
  intros k. exists (cst (fz (2 ^ 53))), (cst (fz 1)), (cst (fz 1)). split; [|split; [|split]].
  - intros i j Hi Hj. cbn [pairs map seq]. unfold cst.
    replace (fz (2 ^ 53)) with (fmul64 (fz 1) (fz (2 ^ 53))) at 2 by (apply B2SF_inj; vm_compute; reflexivity). apply sum_prod.
  - intros i j Hi Hj. cbn [pairs map seq]. unfold cst.
    replace (fz 1) with (fmul64 (fz 1) (fz 1)) at 3 by (apply B2SF_inj; vm_compute; reflexivity). apply sum_prod.
  - intros i j Hi Hj. lia.
  - intros i j Hi Hj. cbn [pairs map seq app]. unfold cst. replace (fz (2 ^ 53)) with (fadd64 (fmul64 (fz (2 ^ 53)) (fz 1)) (fmul64 (fz 1) (fz 1))) at 2 by (apply B2SF_inj; vm_compute; reflexivity).
    apply (sum_add [_] [_]); apply sum_prod.
Qed.
Lemma one_state_exact Q k : exact_cov_run 1 1 0 (fun _ => cst (fz 1)) (fun _ => cst (fz 1)) (fun _ => cst (fz 1)) (fun _ => cst (fz 1)) (fun _ => cst (fz 1)) Q k 0%nat 0%nat = Q 0%nat 0%nat + INR k.
Proof.
  assert (E : val (fz 1) = 1) by (rewrite fz_val by (vm_compute; discriminate); reflexivity).
  induction k as [|k IH]; [cbn [exact_cov_run]; simpl; ring|]. cbn [exact_cov_run]. unfold sandwich at 1. cbn [rsum]. rewrite IH.
  unfold sandwich. cbn [rsum]. unfold vals, cst. rewrite E, S_INR. ring.
Qed.
Lemma INR_archimed e : exists k, e < INR k.
Proof.
  exists (Z.to_nat (up (Rabs e))). destruct (archimed (Rabs e)) as [H _]. pose proof (Rle_abs e). pose proof (Rabs_pos e).
  rewrite INR_IZR_INZ, Z2Nat.id; [lra|]. apply le_IZR. lra.
Qed.
(** the variance getCovariance reports never moves although noise is added in every step: the error grows without bound *)
Theorem C116_refuted : ~ C116_claim.
Proof.
  intros C. destruct (C 1%nat 1%nat 0%nat _ _ _ _ _ _ one_state_run) as (e & H).
  - intros k i j Hi Hj. unfold cst. vm_compute. reflexivity.
  - intros k. repeat split.
  - destruct (INR_archimed e) as (k & Hk). specialize (H k 0%nat 0%nat ltac:(lia) ltac:(lia)). rewrite one_state_exact in H. unfold vals, cst in H.
    replace (val (fz (2 ^ 53)) - (val (fz (2 ^ 53)) + INR k)) with (- INR k) in H by ring. rewrite Rabs_Ropp, Rabs_pos_eq in H by apply pos_INR. lra.
Qed.

(** ** The hypotheses of the stable case are met: x' = x/2 + u with variance and noise 1, forever within 2^-39 of exact arithmetic *)
Lemma half_val : val (fdiv64 (fz 1) (fz 2)) = / 2.
Proof.
  replace (fdiv64 (fz 1) (fz 2)) with (binary_normalize 53 1024 prec64_gt_0 prec64_lt mode_NE 1 (-1) false) by (apply B2SF_inj; vm_compute; reflexivity).
  unfold val. replace (/ 2) with (SF2R radix2 (B2SF (binary_normalize 53 1024 prec64_gt_0 prec64_lt mode_NE 1 (-1) false))); [rewrite SF2R_B2SF; reflexivity|].
  replace (B2SF (binary_normalize 53 1024 prec64_gt_0 prec64_lt mode_NE 1 (-1) false)) with (S754_finite false 4503599627370496 (-53)) by (vm_compute; reflexivity).
  unfold SF2R, F2R. cbn [cond_Zopp Fnum Fexp]. change (bpow radix2 (-53)) with (/ IZR 9007199254740992). field.
Qed.
Example C116_stable_meets_hyps cov : cov_run 1 1 0 (fun _ => cst (fdiv64 (fz 1) (fz 2))) (fun _ => cst (fz 1)) (fun _ => cst (fz 1)) (fun _ => cst (fz 1)) (fun _ => cst (fz 1)) cov ->
  cov 0%nat = cst (fz 1) -> forall k, finite (cov k 0%nat 0%nat) = true /\ Rabs (val (cov k 0%nat 0%nat)) <= 4 /\
  Rabs (val (cov k 0%nat 0%nat) - exact_cov_run 1 1 0 (fun _ => cst (fdiv64 (fz 1) (fz 2))) (fun _ => cst (fz 1)) (fun _ => cst (fz 1)) (fun _ => cst (fz 1)) (fun _ => cst (fz 1)) (vals (cov 0%nat)) k 0%nat 0%nat)
    <= bpow radix2 (-39).
Proof.
  intros Run C0 k. pose proof half_val as Hh. assert (H1 : val (fz 1) = 1) by (rewrite fz_val by (vm_compute; discriminate); reflexivity).
  assert (Fh : finite (fdiv64 (fz 1) (fz 2)) = true) by (vm_compute; reflexivity). assert (F1 : finite (fz 1) = true) by (vm_compute; reflexivity).
  revert Hh Fh Run. generalize (fdiv64 (fz 1) (fz 2)). intros h Hh Fh Run. revert H1 F1 Run C0. generalize (fz 1). intros o H1 F1 Run C0.
  assert (U1 : upto 100 o) by (split; [exact F1|rewrite H1, Rabs_R1; change 1 with (bpow radix2 0); apply bpow_le; lia]).
  destruct (C116_stable_partial 1 1 0 _ _ _ _ _ cov (/ 2) (3 / 4) 4 ltac:(lia) Run) with (k := k) (i := 0%nat) (j := 0%nat) as (Q1 & Q2 & Q3); try lra; try lia.
  - apply Rle_trans with (bpow radix2 (-1)); [apply bpow_le; lia|]. change (bpow radix2 (-1)) with (/ 2). lra.
  - split; [apply Rle_trans with (bpow radix2 0); [apply bpow_le; lia|simpl; lra]|]. change 4 with (bpow radix2 2). apply bpow_le. lia.
  - intros _. repeat split; try (intros i j Hi Hj; apply U1); try lia; apply U1.
  - intros _ i j _ _. exact Fh.
  - intros _ i _. cbn [rsum]. unfold mags, cst. rewrite Hh, Rabs_pos_eq; lra.
  - intros _ i j _ _. unfold sandwich. cbn [rsum]. unfold mags, cst. rewrite H1, Rabs_R1. lra.
  - intros i j _ _. rewrite C0. exact F1.
  - intros i j _ _. rewrite C0. unfold cst. rewrite H1, Rabs_R1. lra.
  - split; [exact Q1|]. split; [exact Q2|]. eapply Rle_trans; [exact Q3|]. change (-39)%Z with (3 + -42)%Z. rewrite bpow_plus. change (bpow radix2 3) with 8.
    pose proof (bpow_gt_0 radix2 (-42)). unfold Rdiv. rewrite Rinv_mult_distr, Rinv_involutive by lra. lra.
Qed.
Example C116_stable_state_meets_hyps x : state_run 1 1 (fun _ => cst (fdiv64 (fz 1) (fz 2))) (fun _ => cst (fz 1)) (fun _ _ => fz 1) x -> x 0%nat = (fun _ => fz 1) ->
  forall k, finite (x k 0%nat) = true /\ Rabs (val (x k 0%nat)) <= 4 /\
  Rabs (val (x k 0%nat) - exact_state_run 1 1 (fun _ => cst (fdiv64 (fz 1) (fz 2))) (fun _ => cst (fz 1)) (fun _ _ => fz 1) (fun i => val (x 0%nat i)) k 0%nat) <= bpow radix2 (-39).
Proof.
  intros Run X0 k. pose proof half_val as Hh. assert (H1 : val (fz 1) = 1) by (rewrite fz_val by (vm_compute; discriminate); reflexivity).
  assert (Fh : finite (fdiv64 (fz 1) (fz 2)) = true) by (vm_compute; reflexivity). assert (F1 : finite (fz 1) = true) by (vm_compute; reflexivity).
  revert Hh Fh Run. generalize (fdiv64 (fz 1) (fz 2)). intros h Hh Fh Run. revert H1 F1 Run X0. generalize (fz 1). intros o H1 F1 Run X0.
  assert (U1 : upto 100 o) by (split; [exact F1|rewrite H1, Rabs_R1; change 1 with (bpow radix2 0); apply bpow_le; lia]).
  destruct (C116_stable_state_partial 1 1 _ _ _ x (/ 2) (/ 2) 4 ltac:(lia) Run) with (k := k) (i := 0%nat) as (Q1 & Q2 & Q3); try lra; try lia.
  - change (/ 2) with (bpow radix2 (-1)). apply bpow_le. lia.
  - split; [apply Rle_trans with (bpow radix2 0); [apply bpow_le; lia|simpl; lra]|]. change 4 with (bpow radix2 2). apply bpow_le. lia.
  - intros _ i j _ _. exact Fh.
  - intros _ i _. cbn [rsum]. unfold mags, cst. rewrite Hh, Rabs_pos_eq; lra.
  - intros _. split; [intros i j _ _; apply U1|intros l _; apply U1].
  - intros _ i _. cbn [rsum]. unfold mags, cst. rewrite H1, Rabs_R1. lra.
  - intros i _. rewrite X0. split; [exact F1|]. rewrite H1, Rabs_R1. lra.
  - split; [exact Q1|]. split; [exact Q2|]. eapply Rle_trans; [exact Q3|]. change (-39)%Z with (3 + -42)%Z. rewrite bpow_plus. change (bpow radix2 3) with 8.
    pose proof (bpow_gt_0 radix2 (-42)). unfold Rdiv. rewrite Rinv_involutive by lra. lra.
Qed.
