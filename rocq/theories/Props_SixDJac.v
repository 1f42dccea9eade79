(** C79: the rows of the six_d_rates system Jacobian other than the gravity rows (those are C70). *)
From Coq Require Import Reals Lra Psatz List Lia Bool Arith.
From Coquelicot Require Import Coquelicot.
From Verif Require Import Outcome ActiveSets Props_ActiveSets Geo Integration Props_Integration Transform Props_Transform Props_Imu SixD Props_SixD Props_SixDMeas.
Import ListNotations.
Open Scope R_scope.

(** a model after any number of updates *)
Definition s6_run (uc : bool) (calls : list (vecn * R)) : SixDRates :=
  fold_left (fun m c => s6_update m (fst c) (snd c)) calls (s6_new true uc).

(** ** G row by row *)
Lemma jacobian_row G x dt i j : (i < 9 \/ 11 < i)%nat ->
  s6_jacobian G x dt i j = if Nat.ltb i 3 && Nat.eqb j (i + 3) then dt else G i j.
Proof.
  intros Hi. unfold s6_jacobian, s6_GX, s6_VX, s6_AX, s6_VPHI. cbv zeta. unfold put_block, mput_row.
  rewrite !(mput_other _ _ _ _ i j) by (left; lia || (left; cbn; lia)). cbn [Nat.add].
  destruct (le_lt_dec 3 i) as [H|H].
  - rewrite !mput_other by (left; lia). rewrite (proj2 (Nat.ltb_ge i 3)) by lia. reflexivity.
  - rewrite (proj2 (Nat.ltb_lt i 3)) by lia. cbn [andb]. unfold mput.
    assert (i = 0 \/ i = 1 \/ i = 2)%nat as [-> | [-> | ->]] by lia; cbn [Nat.eqb andb Nat.add]; destruct (Nat.eqb_spec j 3), (Nat.eqb_spec j 4), (Nat.eqb_spec j 5); try lia; reflexivity.
Qed.
(** the entries outside the gravity rows, for every history *)
Definition unit_row (i j : nat) : R := if Nat.eqb i j then 1 else 0.
Lemma run_cj (calls : list (vecn * R)) m : s6_cj m = true -> s6_cj (fold_left (fun m c => s6_update m (fst c) (snd c)) calls m) = true.
Proof. revert m. induction calls as [|c l IH]; intros m H; [exact H|]. cbn [fold_left]. apply IH. exact H. Qed.
Lemma run_rows uc calls i j : (i < 9 \/ 11 < i)%nat -> (Nat.ltb i 3 && Nat.eqb j (i + 3) = false)%nat -> s6_G (s6_run uc calls) i j = unit_row i j.
Proof.
  intros Hi Hj. unfold s6_run. assert (forall m, s6_cj m = true -> s6_G m i j = unit_row i j -> s6_G (fold_left (fun m c => s6_update m (fst c) (snd c)) calls m) i j = unit_row i j) as A.
  { induction calls as [|c l IH]; intros m Hc Hm; [exact Hm|]. cbn [fold_left]. apply IH; [exact Hc|]. cbn [s6_update s6_G]. rewrite Hc, jacobian_row by exact Hi. rewrite Hj. exact Hm. }
  apply A; reflexivity.
Qed.
Theorem C79_rows (uc : bool) (calls : list (vecn * R)) (x : vecn) (dt : R) (i j : nat) : (i < 9 \/ 11 < i)%nat ->
  s6_G (s6_update (s6_run uc calls) x dt) i j = if Nat.ltb i 3 && Nat.eqb j (i + 3) then dt else if Nat.eqb i j then 1 else 0.
Proof.
  intros Hi. cbn [s6_update s6_G]. unfold s6_run at 1. rewrite run_cj by reflexivity. rewrite jacobian_row by exact Hi.
  destruct (Nat.ltb i 3 && Nat.eqb j (i + 3)) eqn:E; [reflexivity|]. apply run_rows; assumption.
Qed.
(** the rows of acceleration, angular velocity and biases are the derivatives of the (constant) predictions *)
Lemma mat_vec_row A d i : (forall j, (j < s6_DIMS)%nat -> A i j = if Nat.eqb i j then 1 else 0) -> (i < s6_DIMS)%nat -> mat_vec A d i = d i.
Proof.
  intros H Hi. unfold mat_vec. assert (forall n, (n <= 18)%nat -> rsum n (fun j => A i j * d j) = if Nat.ltb i n then d i else 0) as E.
  { induction n as [|n IH]; intros Hn; [reflexivity|]. cbn [rsum]. rewrite IH, H by (unfold s6_DIMS; lia). destruct (Nat.eqb_spec i n) as [->|].
    - rewrite Nat.ltb_irrefl. assert (Nat.ltb n (S n) = true) as -> by (apply Nat.ltb_lt; lia). ring.
    - destruct (Nat.ltb_spec i n); destruct (Nat.ltb_spec i (S n)); try lia; ring. }
  rewrite E by (unfold s6_DIMS; lia). apply Nat.ltb_lt in Hi. rewrite Hi. reflexivity.
Qed.
Theorem C79_constant_rows (uc : bool) (calls : list (vecn * R)) (x d : vecn) (dt : R) (i : nat) : (2 < i < 9 \/ 11 < i < 18)%nat ->
  let m := s6_run uc calls in
  is_derive (fun s => s6_g (s6_update m (fun j => x j + s * d j) dt) i) 0 (mat_vec (s6_G (s6_update m x dt)) d i).
Proof.
  intros Hi m. rewrite mat_vec_row; [| |unfold s6_DIMS; lia].
  - apply (is_derive_ext (fun s => x i + s * d i)); [intros s; cbn [s6_update s6_g]; symmetry; apply (predict_other _ (fun j => x j + s * d j)); lia|]. auto_derive; [exact I|ring].
  - intros j _. unfold m. rewrite C79_rows by lia. destruct (Nat.ltb_spec i 3); [lia|]. reflexivity.
Qed.

(** ** the velocity rows *)
(** the state with its acceleration changed by s d *)
Definition move_accel (x : vecn) (s : R) (d : V3) : vecn := put_seg x s6_AX (vadd (seg x s6_AX) (vscale s d)).
Definition all_active (m : SixDRates) : Prop := forall i, (i < s6_DIMS)%nat -> usage_of (s6_set m) i = true.
(** the claim: the block of G for velocity and acceleration is the derivative of the predicted velocity *)
Definition C79_claim : Prop := forall uc calls x dt d, let m := s6_run uc calls in
  is_vderive (fun s => seg (s6_g (s6_update m (move_accel x s d) dt)) s6_VX) 0 (mvec (get_block (s6_G (s6_update m x dt)) s6_VX s6_AX) d).
Lemma run_active uc calls : all_active (s6_run uc calls).
Proof.
  intros i Hi. unfold s6_run. assert (forall m, s6_set m = newASet s6_DIMS -> s6_set (fold_left (fun m c => s6_update m (fst c) (snd c)) calls m) = newASet s6_DIMS) as A.
  { induction calls as [|c l IH]; intros m H; [exact H|]. cbn [fold_left]. apply IH. exact H. }
  rewrite A by reflexivity. exact (new_usage true uc i Hi).
Qed.
Lemma rk4_lin dt a d w s : integrateVelocityRK4 dt (vadd a (vscale s d)) w vzero = vadd (integrateVelocityRK4 dt a w vzero) (vscale s (integrateVelocityRK4 dt d w vzero)).
Proof.
  unfold integrateVelocityRK4. rewrite !qrot_add, !qrot_scale. cbv zeta.
  generalize (qrot (deltaQuaternion (1 / 2 * dt) w) a) (qrot (deltaQuaternion (1 / 2 * dt) w) d) (qrot (deltaQuaternion dt w) a) (qrot (deltaQuaternion dt w) d).
  intros p q r t. generalize (/ 6). intros k. v3.
Qed.
Theorem C79_true_derivative (m : SixDRates) (x : vecn) (dt : R) (d : V3) : all_active m ->
  is_vderive (fun s => seg (s6_g (s6_update m (move_accel x s d) dt)) s6_VX) 0 (integrateVelocityRK4 dt d (seg x s6_VPHI) vzero).
Proof.
  intros Hu. apply (vderive_ext (fun s => vadd (vadd (seg x s6_VX) (integrateVelocityRK4 dt (seg x s6_AX) (seg x s6_VPHI) vzero)) (vscale s (integrateVelocityRK4 dt d (seg x s6_VPHI) vzero)))); [|apply vderive_lin].
  intros s. cbn [s6_update s6_g]. destruct (predict_velocity (usage_of (s6_set m)) (move_accel x s d) dt) as (V0 & V1 & V2).
  rewrite !Hu in V0, V1, V2 by (unfold s6_DIMS; lia).
  assert (seg (move_accel x s d) 3 = vadd (seg x s6_AX) (vscale s d)) as Ea by apply seg_put_seg.
  assert (seg (move_accel x s d) 6 = seg x s6_VPHI) as Ew by (unfold seg, move_accel, s6_AX, s6_VPHI; rewrite !put_seg_other by lia; reflexivity).
  assert (forall i, (i < 3)%nat -> move_accel x s d i = x i) as Ei by (intros; unfold move_accel, s6_AX; apply put_seg_other; lia).
  rewrite Ea, Ew, rk4_lin in V0, V1, V2. rewrite Ei in V0, V1, V2 by lia. symmetry. revert V0 V1 V2.
  generalize (integrateVelocityRK4 dt (seg x s6_AX) (seg x s6_VPHI) vzero) (integrateVelocityRK4 dt d (seg x s6_VPHI) vzero). intros p q V0 V1 V2.
  unfold seg, s6_VX, b2r in *. cbn [Nat.add]. rewrite V0, V1, V2. v3.
Qed.
Lemma velocity_block uc calls x dt : get_block (s6_G (s6_update (s6_run uc calls) x dt)) s6_VX s6_AX = mscale dt mid.
Proof. unfold get_block, s6_VX, s6_AX. cbn [Nat.add]. rewrite !C79_rows by lia. cbn [Nat.ltb Nat.leb Nat.eqb andb Nat.add]. m3. Qed.
(** it is the derivative exactly when the time step is zero or nothing is turned in half the step *)
Theorem C79_exact_iff_partial (uc : bool) (calls : list (vecn * R)) (x : vecn) (dt : R) : let m := s6_run uc calls in
  (forall d, is_vderive (fun s => seg (s6_g (s6_update m (move_accel x s d) dt)) s6_VX) 0 (mvec (get_block (s6_G (s6_update m x dt)) s6_VX s6_AX) d))
  <-> dt = 0 \/ (forall v, qrot (deltaQuaternion (1 / 2 * dt) (seg x s6_VPHI)) v = v).
Proof.
  cbv zeta. rewrite velocity_block. set (w := seg x s6_VPHI). pose proof (fun d => C79_true_derivative (s6_run uc calls) x dt d (run_active uc calls)) as T. fold w in T.
  assert (forall d, mvec (mscale dt mid) d = vscale dt d) as Em by (intros; v3). split.
  - intros H. destruct (Req_dec dt 0) as [|Hd]; [left; assumption|right]. intros v. pose proof (C67_unique _ _ _ _ (H v) (T v)) as U. rewrite Em in U.
    pose proof (C60_length (1 / 2 * dt) w v) as N1. pose proof (C60_length dt w v) as N2. unfold integrateVelocityRK4 in U. revert U N1 N2.
    generalize (qrot (deltaQuaternion (1 / 2 * dt) w) v) (qrot (deltaQuaternion dt w) v). intros p q U N1 N2.
    assert (vscale 6 v = vadd v (vadd (vscale 4 p) q)) as E.
    { apply V3_eq; [apply (f_equal vx) in U|apply (f_equal vy) in U|apply (f_equal vz) in U]; revert U; gunf; intros U;
      apply (Rmult_eq_reg_l dt); try exact Hd; lra. }
    assert (dot v v + 4 * dot v p + dot v q = 6 * dot v v) as D. { transitivity (dot v (vadd v (vadd (vscale 4 p) q))); [gunf; ring|]. rewrite <- E. gunf. ring. }
    pose proof (cauchy v p) as C1. pose proof (cauchy v q) as C2. rewrite N1 in C1. rewrite N2 in C2. rewrite norm_sq in C1, C2. change (norm2 v) with (dot v v) in *.
    assert (dot v p = dot v v) as Dp by lra.
    assert (norm2 p = norm2 v) as Np by (rewrite <- !norm_sq, N1; reflexivity).
    assert (vsub p v = vzero) as Z. { apply norm2_0. transitivity (norm2 p - 2 * dot v p + dot v v); [gunf; ring|]. rewrite Np, Dp. unfold norm2. ring. }
    apply V3_eq; [apply (f_equal vx) in Z|apply (f_equal vy) in Z|apply (f_equal vz) in Z]; revert Z; gunf; lra.
  - intros H d. rewrite Em. replace (vscale dt d) with (integrateVelocityRK4 dt d w vzero); [apply T|]. unfold integrateVelocityRK4. cbv zeta. destruct H as [->|H].
    + generalize (qrot (deltaQuaternion (1 / 2 * 0) w) d) (qrot (deltaQuaternion 0 w) d). intros. v3.
    + assert (qrot (deltaQuaternion dt w) d = d) as ->.
      { replace (deltaQuaternion dt w) with (qmul (deltaQuaternion (1 / 2 * dt) w) (deltaQuaternion (1 / 2 * dt) w)) by (rewrite C59_compose; f_equal; field).
        rewrite qrot_mul by apply C59_unit. rewrite !H. reflexivity. }
      rewrite H. apply V3_eq; gunf; field.
Qed.
(** a full turn per step about z: the velocity changes by -1/3 of what G says *)
Theorem C79_refuted : ~ C79_claim.
Proof.
  intros H. set (x := fun i : nat => if Nat.eqb i 8 then 2 * PI else 0).
  assert (forall d, is_vderive (fun s => seg (s6_g (s6_update (s6_run true []) (move_accel x s d) 1)) s6_VX) 0 (mvec (get_block (s6_G (s6_update (s6_run true []) x 1)) s6_VX s6_AX) d)) as K by (intros d; apply (H true [])).
  apply C79_exact_iff_partial in K. destruct K as [K|K]; [lra|]. specialize (K (mkV 1 0 0)).
  assert (seg x s6_VPHI = mkV 0 0 (2 * PI)) as Ex by reflexivity. rewrite Ex in K. pose proof PI_RGT_0. pose proof PI2_1.
  assert (norm (mkV 0 0 (2 * PI)) = 2 * PI) as N by (apply norm_z; lra).
  rewrite dq_big in K by (rewrite N; unfold eps; lra). cbv zeta in K. rewrite N in K. replace (1 / 2 * (1 / 2 * 1) * (2 * PI)) with (PI / 2) in K by field.
  rewrite cos_PI2, sin_PI2 in K. cbn [vx vy vz] in K. apply (f_equal vx) in K. revert K. gunf. intros K.
  assert (1 / (2 * PI) * (2 * PI) = 1) as E by (field; lra). rewrite !E in K. lra.
Qed.
Example C79_nonvacuous : exists x dt, dt <> 0 /\ forall v, qrot (deltaQuaternion (1 / 2 * dt) (seg x s6_VPHI)) v = v.
Proof. exists (fun _ => 1 / 10000000000), 1. split; [lra|]. intros v. apply C60_small. unfold seg. set (k := 1 / 10000000000).
  replace (mkV k k k) with (vscale k (mkV 1 1 1)) by v3. rewrite norm_scale, Rabs_pos_eq by (unfold k; lra).
  assert (norm (mkV 1 1 1) <= 2) as B. { unfold norm. replace 2 with (sqrt (2 * 2)) by (apply sqrt_square; lra). apply sqrt_le_1_alt. gunf. lra. }
  unfold k, eps in *. lra. Qed.
