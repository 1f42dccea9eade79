(** C63 - C66: frame transformations. *)
From Coq Require Import Reals Lra Psatz.
From Verif Require Import Outcome Geo Transform.
Open Scope R_scope.

(** Eigen::Isometry3d holds a rotation *)
Definition rigid (tf : Iso) : Prop := rotation (iR tf).

(** ** C63 *)
Theorem C63_compose (v w : V3) (tf1 tf2 : Iso) : rigid tf1 -> rigid tf2 ->
  let w1 := transformAngularVelocity w (iR tf1) in
  let v1 := transformLinearVelocity v w tf1 in
  transformLinearVelocity v1 w1 tf2 = transformLinearVelocity v w (iso_mul tf2 tf1)
  /\ transformAngularVelocity w1 (iR tf2) = transformAngularVelocity w (iR (iso_mul tf2 tf1)).
Proof.
  intros H1 H2. cbv zeta. unfold transformLinearVelocity, transformAngularVelocity, iso_mul; cbn [iR it]. split; [|symmetry; apply mvec_mmul].
  rewrite !mvec_mmul, mvec_add, rotation_cross by exact H2.
  generalize (mvec (iR tf2) (mvec (iR tf1) v)) (mvec (iR tf2) (mvec (iR tf1) w)) (mvec (iR tf2) (it tf1)). intros. v3.
Qed.
Lemma iso_inv_l tf : rigid tf -> iso_mul (iso_inv tf) tf = iso_id.
Proof.
  intros (_ & H & _). unfold iso_mul, iso_inv, iso_id; cbn [iR it]. rewrite H. f_equal.
  generalize (mvec (mtr (iR tf)) (it tf)). intros. v3.
Qed.
Lemma rigid_inv tf : rigid tf -> rigid (iso_inv tf).
Proof. apply rotation_tr. Qed.
Theorem C63_inverse (v w : V3) (tf : Iso) : rigid tf ->
  let w1 := transformAngularVelocity w (iR tf) in
  let v1 := transformLinearVelocity v w tf in
  transformLinearVelocity v1 w1 (iso_inv tf) = v /\ transformAngularVelocity w1 (iR (iso_inv tf)) = w.
Proof.
  intros H. destruct (C63_compose v w tf (iso_inv tf) H (rigid_inv tf H)) as (E1 & E2). cbv zeta in *. rewrite E1, E2, iso_inv_l by exact H.
  unfold transformLinearVelocity, transformAngularVelocity, iso_id; cbn [iR it]. rewrite !mvec_mid. split; [v3|reflexivity].
Qed.
Theorem C63_identity (v w : V3) : transformLinearVelocity v w iso_id = v /\ transformAngularVelocity w (iR iso_id) = w.
Proof. unfold transformLinearVelocity, transformAngularVelocity, iso_id; cbn [iR it]. rewrite !mvec_mid. split; [v3|reflexivity]. Qed.
(** a quarter turn about z and an offset *)
Definition rz90 : M3 := mkM (mkV 0 (-1) 0) (mkV 1 0 0) (mkV 0 0 1).
Lemma rz90_rot : rotation rz90.
Proof. unfold rotation, rz90. split; [|split]; [m3|m3|gunf; ring]. Qed.
Lemma rz90_mv x y z : mvec rz90 (mkV x y z) = mkV (- y) x z.
Proof. unfold rz90. v3. Qed.
Lemma cross_mk a b c x y z : cross (mkV a b c) (mkV x y z) = mkV (b * z - c * y) (c * x - a * z) (a * y - b * x).
Proof. reflexivity. Qed.
Lemma vadd_mk a b c x y z : vadd (mkV a b c) (mkV x y z) = mkV (a + x) (b + y) (c + z).
Proof. reflexivity. Qed.
Example C63_nonvacuous : rigid (mkIso rz90 (mkV 1 2 3)) /\
  transformLinearVelocity (mkV 1 0 0) (mkV 0 0 1) (mkIso rz90 (mkV 1 2 3)) = mkV (-2) 2 0.
Proof. split; [apply rz90_rot|]. unfold transformLinearVelocity, rz90. cbn [iR it]. v3. Qed.

(** ** C64 *)
Definition C64_claim : Prop := forall (a w : V3) (tf1 tf2 : Iso), rigid tf1 -> rigid tf2 ->
  transformLinearAcceleration (transformLinearAcceleration a w tf1) (transformAngularVelocity w (iR tf1)) tf2
  = transformLinearAcceleration a w (iso_mul tf2 tf1).
(** the velocity transform takes the lever arm in the target frame, the acceleration transform in the
    source frame: with a rotation of a quarter turn and an offset of 1 along x the centripetal term
    points the wrong way *)
Theorem C64_refuted : ~ C64_claim.
Proof.
  intros H. specialize (H vzero (mkV 1 0 0) (mkIso rz90 vzero) (mkIso rz90 (mkV 1 0 0)) rz90_rot rz90_rot).
  apply (f_equal vy) in H. revert H.
  unfold transformLinearAcceleration, transformAngularVelocity, iso_mul, vzero; cbn [iR it]. rewrite ?mvec_mmul.
  repeat (rewrite ?rz90_mv, ?cross_mk, ?vadd_mk). cbn [vx vy vz]. lra.
Qed.
(** the same even for one transform followed by its inverse *)
Theorem C64_refuted_inverse : exists a w tf, rigid tf /\
  transformLinearAcceleration (transformLinearAcceleration a w tf) (transformAngularVelocity w (iR tf)) (iso_inv tf) <> a.
Proof.
  exists vzero, (mkV 0 1 0), (mkIso rz90 (mkV 1 0 0)). split; [apply rz90_rot|]. intros H. apply (f_equal vx) in H. revert H.
  assert (iso_inv (mkIso rz90 (mkV 1 0 0)) = mkIso (mtr rz90) (mkV 0 1 0)) as -> by (unfold iso_inv, rz90; cbn [iR it]; f_equal; v3).
  assert (forall x y z, mvec (mtr rz90) (mkV x y z) = mkV y (- x) z) as T by (intros; unfold rz90; v3).
  unfold transformLinearAcceleration, transformAngularVelocity, vzero; cbn [iR it].
  repeat (rewrite ?T, ?rz90_mv, ?cross_mk, ?vadd_mk). cbn [vx vy vz]. lra.
Qed.
(** what the two transforms do agree on: written with the lever arm R^T t the acceleration
    transform would be R a + (R w) x ((R w) x t); with t it is that only when R keeps t *)
Theorem C64_convention_partial (a w : V3) (tf : Iso) : rigid tf ->
  transformLinearAcceleration a w tf =
  vadd (mvec (iR tf) a) (cross (mvec (iR tf) w) (cross (mvec (iR tf) w) (mvec (iR tf) (it tf)))).
Proof. intros H. unfold transformLinearAcceleration. rewrite mvec_add, !rotation_cross by exact H. reflexivity. Qed.
(** pure rotations compose, and so do translations with a common orientation *)
Theorem C64_compose_rotations_partial (a w : V3) (tf1 tf2 : Iso) : it tf1 = vzero -> it tf2 = vzero ->
  transformLinearAcceleration (transformLinearAcceleration a w tf1) (transformAngularVelocity w (iR tf1)) tf2
  = transformLinearAcceleration a w (iso_mul tf2 tf1).
Proof.
  intros H1 H2. unfold transformLinearAcceleration, transformAngularVelocity, iso_mul; cbn [iR it]. rewrite H1, H2, mvec_mmul.
  assert (forall u, vadd u vzero = u) as Z by (intros; v3). assert (forall u, cross u vzero = vzero) as C by (intros; v3).
  assert (forall m, mvec m vzero = vzero) as M by (intros; v3). rewrite M, !Z, !C, !Z. reflexivity.
Qed.
Theorem C64_compose_translations_partial (a w : V3) (tf1 tf2 : Iso) : iR tf1 = mid -> iR tf2 = mid ->
  transformLinearAcceleration (transformLinearAcceleration a w tf1) (transformAngularVelocity w (iR tf1)) tf2
  = transformLinearAcceleration a w (iso_mul tf2 tf1).
Proof.
  intros H1 H2. unfold transformLinearAcceleration, transformAngularVelocity, iso_mul; cbn [iR it]. rewrite H1, H2, mmul_id_l, !mvec_mid.
  generalize (it tf1) (it tf2). intros. v3.
Qed.
Example C64_nonvacuous : let tf := mkIso mid (mkV 1 0 0) in
  transformLinearAcceleration (mkV 0 0 1) (mkV 0 0 2) tf = mkV (-4) 0 1.
Proof. cbv zeta. unfold transformLinearAcceleration. cbn [iR it]. v3. Qed.

(** ** C65 *)
Definition symmetric (m : M3) : Prop := mtr m = m.
Definition psd (m : M3) : Prop := forall v, 0 <= dot v (mvec m v).
Theorem C65_symmetric (C R : M3) : symmetric C -> symmetric (transformCovariance C R).
Proof. unfold symmetric, transformCovariance. intros H. rewrite !mtr_mmul, H, mtr_mtr, mmul_assoc. reflexivity. Qed.
Lemma quad_transform C R v : dot v (mvec (transformCovariance C R) v) = dot (mvec (mtr R) v) (mvec C (mvec (mtr R) v)).
Proof. unfold transformCovariance. rewrite !mvec_mmul, dot_mvec, mtr_mtr. reflexivity. Qed.
Theorem C65_psd (C R : M3) : psd C -> psd (transformCovariance C R).
Proof. intros H v. rewrite quad_transform. apply H. Qed.
(** variances along rotated directions are the old ones *)
Theorem C65_variances (C R : M3) (v : V3) : rotation R -> dot (mvec R v) (mvec (transformCovariance C R) (mvec R v)) = dot v (mvec C v).
Proof. intros (_ & H & _). rewrite quad_transform, <- mvec_mmul, H, mvec_mid. reflexivity. Qed.
Lemma trace_comm a b : trace (mmul a b) = trace (mmul b a).
Proof. gunf. ring. Qed.
Theorem C65_trace (C R : M3) : rotation R -> trace (transformCovariance C R) = trace C.
Proof. intros (_ & H & _). unfold transformCovariance. rewrite trace_comm, <- mmul_assoc, H, mmul_id_l. reflexivity. Qed.
Theorem C65_det (C R : M3) : rotation R -> det (transformCovariance C R) = det C.
Proof. intros (_ & _ & H). unfold transformCovariance. rewrite !det_mmul, det_mtr, H. ring. Qed.
Theorem C65_rotate_back (C R : M3) : rotation R -> transformCovariance (transformCovariance C R) (mtr R) = C.
Proof.
  intros (_ & H & _). unfold transformCovariance. rewrite mtr_mtr, !mmul_assoc, H, mmul_id_r, <- mmul_assoc, H, mmul_id_l. reflexivity.
Qed.
Theorem C65_compose (C R1 R2 : M3) : transformCovariance (transformCovariance C R1) R2 = transformCovariance C (mmul R2 R1).
Proof. unfold transformCovariance. rewrite mtr_mmul, !mmul_assoc. reflexivity. Qed.
Example C65_nonvacuous : let C := mkM (mkV 2 1 0) (mkV 1 2 0) (mkV 0 0 5) in
  symmetric C /\ psd C /\ transformCovariance C rz90 = mkM (mkV 2 (-1) 0) (mkV (-1) 2 0) (mkV 0 0 5).
Proof.
  cbv zeta. split; [reflexivity|]. split; [|unfold transformCovariance, rz90; m3].
  intros v. gunf. pose proof (Rle_0_sqr (vx v + vy v)). pose proof (Rle_0_sqr (vx v)). pose proof (Rle_0_sqr (vy v)). pose proof (Rle_0_sqr (vz v)).
  unfold Rsqr in *. lra.
Qed.

(** ** C66 *)
Definition C66_claim : Prop := forall g, g <> vzero ->
  exists q, orientationFromGravityVector g = Ok q /\ qnorm2 q = 1 /\ qz q = 0 /\ qrot q (mkV 0 0 (-1)) = vscale (/ norm g) g.
Lemma norm_nz g : g <> vzero -> 0 < norm g.
Proof. intros H. destruct (Rle_lt_or_eq_dec 0 (norm g) (norm_pos g)); auto. exfalso. apply H, norm_0. auto. Qed.
Lemma normalized_nz g : g <> vzero -> normalized g = vscale (/ norm g) g /\ norm2 (vscale (/ norm g) g) = 1.
Proof.
  intros H. pose proof (norm_nz g H) as Hn. unfold normalized. assert (0 < norm2 g) by (rewrite <- norm_sq; nra).
  destruct (Rlt_dec 0 (norm2 g)); [|lra]. split; [reflexivity|].
  replace (norm2 (vscale (/ norm g) g)) with (/ norm g * / norm g * norm2 g) by (gunf; ring). rewrite <- norm_sq. field. lra.
Qed.
(** straight up: q.w() = 0 and the components are 0/0 *)
Theorem C66_refuted_up (k : R) : 0 < k -> orientationFromGravityVector (mkV 0 0 k) = Ub ub_singular.
Proof.
  intros Hk. assert (mkV 0 0 k <> vzero) as Hz by (intros E; injection E; lra).
  destruct (normalized_nz _ Hz) as (E & N). unfold orientationFromGravityVector. rewrite E, N. cbv zeta.
  destruct (Rlt_dec _ 1); [|lra].
  assert (norm (mkV 0 0 k) = k) as Nk.
  { unfold norm. replace (norm2 (mkV 0 0 k)) with (k * k) by (gunf; ring). apply sqrt_square. lra. }
  rewrite Nk. cbn [vscale vz]. rewrite sqrt_1. replace (1 / 2 * (- (/ k * k) + 1)) with 0 by (field; lra). rewrite sqrt_0.
  destruct (Req_EM_T 0 0); [reflexivity|lra].
Qed.
Theorem C66_refuted : ~ C66_claim.
Proof.
  intros H. destruct (H (mkV 0 0 1)) as (q & E & _).
  - intros E. injection E. lra.
  - rewrite C66_refuted_up in E by lra. discriminate.
Qed.
(** every other non-zero gravity vector is fine *)
Theorem C66_partial (g : V3) : g <> vzero -> (forall k, 0 < k -> g <> mkV 0 0 k) ->
  exists q, orientationFromGravityVector g = Ok q /\ qnorm2 q = 1 /\ qz q = 0 /\ qrot q (mkV 0 0 (-1)) = vscale (/ norm g) g.
Proof.
  intros Hz Hup. pose proof (norm_nz g Hz) as Hn. destruct (normalized_nz g Hz) as (E & N). unfold orientationFromGravityVector. rewrite E, N. cbv zeta.
  set (u := vscale (/ norm g) g) in *. destruct (Rlt_dec _ 1) as [_|]; [|lra]. rewrite sqrt_1.
  assert (vx u * vx u + vy u * vy u + vz u * vz u = 1) as Nu by (revert N; gunf; lra).
  assert (vz u < 1) as Hu.
  { destruct (Rlt_dec (vz u) 1) as [|Hge]; auto. exfalso. assert (vx u = 0 /\ vy u = 0 /\ vz u = 1) as (X & Y & Z) by (split; [nra|split; nra]).
    apply (Hup (norm g) Hn). unfold u, vscale in X, Y, Z; cbn in X, Y, Z.
    assert (forall a, / norm g * a = 0 -> a = 0) as C. { intros a Ha. apply (Rmult_eq_reg_l (/ norm g)); [lra|]. apply Rinv_neq_0_compat. lra. }
    apply V3_eq; cbn; auto. apply (Rmult_eq_reg_l (/ norm g)); [|apply Rinv_neq_0_compat; lra]. rewrite Z. field. lra. }
  set (s := sqrt (1 / 2 * (- vz u + 1))). assert (s * s = 1 / 2 * (- vz u + 1)) as Hs by (apply sqrt_sqrt; lra).
  assert (0 < s) as Hs0 by (apply sqrt_lt_R0; lra).
  destruct (Req_EM_T s 0); [lra|]. eexists. split; [reflexivity|].
  assert (qnorm2 (mkQ s (vy u / (2 * s)) (- vx u / (2 * s)) 0) = 1) as Hq.
  { unfold qnorm2; cbn [qw qx qy qz].
    transitivity (s * s + (vx u * vx u + vy u * vy u) / (4 * (s * s))); [field; lra|]. rewrite Hs.
    replace (vx u * vx u + vy u * vy u) with ((1 - vz u) * (1 + vz u)) by lra. field. lra. }
  split; [exact Hq|]. split; [reflexivity|]. rewrite qrot_unit by exact Hq. unfold qsand.
  assert (vz u = 1 - 2 * (s * s)) as Zu by lra.
  assert (vx u * vx u + vy u * vy u = 4 * (s * s) * (1 - s * s)) as Du by (rewrite Zu in Nu; lra).
  apply V3_eq; gunf.
  - field. lra.
  - field. lra.
  - rewrite Zu. transitivity (- (s * s - (vx u * vx u + vy u * vy u) / (4 * (s * s)))); [field; lra|]. rewrite Du. field. lra.
Qed.
(** and the zero vector gives the identity *)
Theorem C66_zero : orientationFromGravityVector vzero = Ok qid.
Proof.
  assert (norm2 vzero = 0) as Z by (gunf; ring).
  assert (normalized vzero = vzero) as E. { unfold normalized. destruct (Rlt_dec 0 (norm2 vzero)); [rewrite Z in *; lra|reflexivity]. }
  unfold orientationFromGravityVector. rewrite E, Z. cbv zeta. destruct (Rlt_dec _ 0); [lra|reflexivity].
Qed.
Example C66_nonvacuous : let g := mkV 3 4 (-12) in g <> vzero /\ forall k, 0 < k -> g <> mkV 0 0 k.
Proof. cbv zeta. split; [intros E; injection E; lra|intros k _ E; injection E; lra]. Qed.
