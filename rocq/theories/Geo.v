(** Three-dimensional vectors, matrices, quaternions and rigid transforms over the reals: the parts
    of Eigen that utilities/ and the six_d_rates models call, in exact arithmetic. *)
From Coq Require Import Reals Lra Psatz.
Open Scope R_scope.

(** ** Eigen::Vector3d *)
Record V3 := mkV { vx : R; vy : R; vz : R }.
Definition vzero : V3 := mkV 0 0 0.
Definition vadd (a b : V3) : V3 := mkV (vx a + vx b) (vy a + vy b) (vz a + vz b).
Definition vsub (a b : V3) : V3 := mkV (vx a - vx b) (vy a - vy b) (vz a - vz b).
Definition vscale (k : R) (a : V3) : V3 := mkV (k * vx a) (k * vy a) (k * vz a).
Definition vopp (a : V3) : V3 := vscale (-1) a.
Definition dot (a b : V3) : R := vx a * vx b + vy a * vy b + vz a * vz b.
Definition cross (a b : V3) : V3 :=
  mkV (vy a * vz b - vz a * vy b) (vz a * vx b - vx a * vz b) (vx a * vy b - vy a * vx b).
Definition norm2 (a : V3) : R := dot a a.
Definition norm (a : V3) : R := sqrt (norm2 a).
(** Eigen/src/Core/Dot.h (3.3): divides by the norm when the squared norm is positive *)
Definition normalized (a : V3) : V3 := if Rlt_dec 0 (norm2 a) then vscale (/ norm a) a else a.

(** ** Eigen::Matrix3d, by rows *)
Record M3 := mkM { r0 : V3; r1 : V3; r2 : V3 }.
Definition mzero : M3 := mkM vzero vzero vzero.
Definition mid : M3 := mkM (mkV 1 0 0) (mkV 0 1 0) (mkV 0 0 1).
Definition madd (a b : M3) : M3 := mkM (vadd (r0 a) (r0 b)) (vadd (r1 a) (r1 b)) (vadd (r2 a) (r2 b)).
Definition mscale (k : R) (a : M3) : M3 := mkM (vscale k (r0 a)) (vscale k (r1 a)) (vscale k (r2 a)).
Definition msub (a b : M3) : M3 := madd a (mscale (-1) b).
Definition mvec (m : M3) (v : V3) : V3 := mkV (dot (r0 m) v) (dot (r1 m) v) (dot (r2 m) v).
Definition mtr (m : M3) : M3 :=
  mkM (mkV (vx (r0 m)) (vx (r1 m)) (vx (r2 m))) (mkV (vy (r0 m)) (vy (r1 m)) (vy (r2 m)))
      (mkV (vz (r0 m)) (vz (r1 m)) (vz (r2 m))).
Definition vmat (v : V3) (m : M3) : V3 := mvec (mtr m) v.
Definition mmul (a b : M3) : M3 := mkM (vmat (r0 a) b) (vmat (r1 a) b) (vmat (r2 a) b).
Definition outer (a b : V3) : M3 := mkM (vscale (vx a) b) (vscale (vy a) b) (vscale (vz a) b).
Definition det (m : M3) : R := dot (r0 m) (cross (r1 m) (r2 m)).
Definition trace (m : M3) : R := vx (r0 m) + vy (r1 m) + vz (r2 m).
(** a proper rotation *)
Definition rotation (m : M3) : Prop := mmul m (mtr m) = mid /\ mmul (mtr m) m = mid /\ det m = 1.

(** src/utilities/math_utilities.cpp, skew *)
Definition skew (v : V3) : M3 := mkM (mkV 0 (- vz v) (vy v)) (mkV (vz v) 0 (- vx v)) (mkV (- vy v) (vx v) 0).

(** ** Eigen::Quaterniond *)
Record Quat := mkQ { qw : R; qx : R; qy : R; qz : R }.
Definition qvec (q : Quat) : V3 := mkV (qx q) (qy q) (qz q).
Definition qid : Quat := mkQ 1 0 0 0.
Definition qmul (a b : Quat) : Quat :=
  mkQ (qw a * qw b - qx a * qx b - qy a * qy b - qz a * qz b)
      (qw a * qx b + qx a * qw b + qy a * qz b - qz a * qy b)
      (qw a * qy b + qy a * qw b + qz a * qx b - qx a * qz b)
      (qw a * qz b + qz a * qw b + qx a * qy b - qy a * qx b).
Definition qconj (q : Quat) : Quat := mkQ (qw q) (- qx q) (- qy q) (- qz q).
Definition qnorm2 (q : Quat) : R := qw q * qw q + qx q * qx q + qy q * qy q + qz q * qz q.
Definition qnorm (q : Quat) : R := sqrt (qnorm2 q).
(** Eigen/src/Geometry/Quaternion.h, _transformVector *)
Definition qrot (q : Quat) (v : V3) : V3 :=
  let uv := vscale 2 (cross (qvec q) v) in
  vadd (vadd v (vscale (qw q) uv)) (cross (qvec q) uv).

(** ** Eigen::Isometry3d *)
Record Iso := mkIso { iR : M3; it : V3 }.
Definition iso_id : Iso := mkIso mid vzero.
(** tf2 * tf1: first tf1, then tf2 *)
Definition iso_mul (b a : Iso) : Iso := mkIso (mmul (iR b) (iR a)) (vadd (mvec (iR b) (it a)) (it b)).
Definition iso_inv (a : Iso) : Iso := mkIso (mtr (iR a)) (vopp (mvec (mtr (iR a)) (it a))).

(** ** Lemmas *)
Lemma V3_eq a b : vx a = vx b -> vy a = vy b -> vz a = vz b -> a = b.
Proof. destruct a, b; simpl; congruence. Qed.
Lemma M3_eq a b : r0 a = r0 b -> r1 a = r1 b -> r2 a = r2 b -> a = b.
Proof. destruct a, b; simpl; congruence. Qed.
Lemma Quat_eq a b : qw a = qw b -> qx a = qx b -> qy a = qy b -> qz a = qz b -> a = b.
Proof. destruct a, b; simpl; congruence. Qed.

Ltac gproj := cbn [vx vy vz r0 r1 r2 qw qx qy qz iR it].
Ltac gunf := unfold iso_mul, iso_inv, iso_id, qrot, qmul, qconj, qnorm2, qid, qvec, trace, rotation, det, outer, mmul, vmat, mtr, mvec, msub, mscale, madd, mid, mzero, skew, norm2,
  cross, dot, vopp, vscale, vsub, vadd, vzero; gproj.
Ltac v3 := apply V3_eq; gunf; try ring.
Ltac m3 := apply M3_eq; apply V3_eq; gunf; try ring.
Ltac q4 := apply Quat_eq; gunf; try ring.

Lemma norm2_pos a : 0 <= norm2 a.
Proof. unfold norm2, dot. nra. Qed.
Lemma norm_pos a : 0 <= norm a.
Proof. apply sqrt_pos. Qed.
Lemma norm_sq a : norm a * norm a = norm2 a.
Proof. apply sqrt_sqrt, norm2_pos. Qed.
Lemma norm2_0 a : norm2 a = 0 -> a = vzero.
Proof. unfold norm2, dot. intros H. apply V3_eq; cbn; nra. Qed.
Lemma norm_0 a : norm a = 0 -> a = vzero.
Proof. intros H. apply norm2_0. rewrite <- norm_sq, H. ring. Qed.
Lemma norm_zero : norm vzero = 0.
Proof. unfold norm. replace (norm2 vzero) with 0 by (gunf; ring). apply sqrt_0. Qed.
Lemma norm_scale k a : norm (vscale k a) = Rabs k * norm a.
Proof.
  unfold norm. rewrite <- sqrt_Rsqr_abs, <- sqrt_mult_alt by apply Rle_0_sqr. f_equal. unfold Rsqr; gunf; ring.
Qed.
Lemma cauchy a b : dot a b <= norm a * norm b.
Proof.
  unfold norm. rewrite <- sqrt_mult_alt by apply norm2_pos.
  apply Rle_trans with (Rabs (dot a b)); [apply Rle_abs|]. rewrite <- sqrt_Rsqr_abs. apply sqrt_le_1_alt.
  unfold Rsqr, norm2, dot.
  pose proof (Rle_0_sqr (vx a * vy b - vy a * vx b)). pose proof (Rle_0_sqr (vx a * vz b - vz a * vx b)).
  pose proof (Rle_0_sqr (vy a * vz b - vz a * vy b)). unfold Rsqr in *. lra.
Qed.
Lemma norm_triangle a b : norm (vadd a b) <= norm a + norm b.
Proof.
  apply Rsqr_incr_0_var; [|pose proof (norm_pos a); pose proof (norm_pos b); lra]. unfold Rsqr. rewrite norm_sq.
  replace (norm2 (vadd a b)) with (norm2 a + 2 * dot a b + norm2 b) by (gunf; ring).
  pose proof (cauchy a b). pose proof (norm_sq a). pose proof (norm_sq b). lra.
Qed.

Lemma mvec_mmul a b v : mvec (mmul a b) v = mvec a (mvec b v).
Proof. v3. Qed.
Lemma mvec_mid v : mvec mid v = v.
Proof. v3. Qed.
Lemma mvec_add m a b : mvec m (vadd a b) = vadd (mvec m a) (mvec m b).
Proof. v3. Qed.
Lemma mvec_scale m k a : mvec m (vscale k a) = vscale k (mvec m a).
Proof. v3. Qed.
Lemma mvec_madd a b v : mvec (madd a b) v = vadd (mvec a v) (mvec b v).
Proof. v3. Qed.
Lemma mmul_assoc a b c : mmul (mmul a b) c = mmul a (mmul b c).
Proof. apply M3_eq; v3. Qed.
Lemma mmul_id_r a : mmul a mid = a.
Proof. apply M3_eq; v3. Qed.
Lemma mmul_id_l a : mmul mid a = a.
Proof. apply M3_eq; v3. Qed.
Lemma mtr_mmul a b : mtr (mmul a b) = mmul (mtr b) (mtr a).
Proof. apply M3_eq; v3. Qed.
Lemma mtr_mtr a : mtr (mtr a) = a.
Proof. apply M3_eq; apply V3_eq; reflexivity. Qed.
Lemma mtr_mid : mtr mid = mid.
Proof. reflexivity. Qed.
Lemma det_mmul a b : det (mmul a b) = det a * det b.
Proof. gunf. ring. Qed.
Lemma det_mtr a : det (mtr a) = det a.
Proof. gunf. ring. Qed.
Lemma dot_mvec m a b : dot (mvec m a) b = dot a (mvec (mtr m) b).
Proof. gunf. ring. Qed.
Lemma skew_cross a b : mvec (skew a) b = cross a b.
Proof. v3. Qed.
Lemma rotation_mid : rotation mid.
Proof. split; [|split]; [apply mmul_id_r|apply mmul_id_l|]. gunf. ring. Qed.
Lemma rotation_mul a b : rotation a -> rotation b -> rotation (mmul a b).
Proof.
  intros (A1 & A2 & A3) (B1 & B2 & B3). split; [|split].
  - rewrite mtr_mmul, mmul_assoc, <- (mmul_assoc b), B1, mmul_id_l. exact A1.
  - rewrite mtr_mmul, mmul_assoc, <- (mmul_assoc (mtr a)), A2, mmul_id_l. exact B2.
  - rewrite det_mmul, A3, B3. ring.
Qed.
Lemma rotation_tr a : rotation a -> rotation (mtr a).
Proof. intros (A1 & A2 & A3). split; [|split]; rewrite ?mtr_mtr, ?det_mtr; auto. Qed.
Lemma rotation_norm m v : rotation m -> norm (mvec m v) = norm v.
Proof. intros (_ & H & _). unfold norm, norm2. rewrite dot_mvec, <- mvec_mmul, H, mvec_mid. reflexivity. Qed.
(** m (a x b) = m a x m b for rotations: cofactor identity *)
Lemma cofactor m a b : mvec (mtr m) (cross (mvec m a) (mvec m b)) = vscale (det m) (cross a b).
Proof. v3. Qed.
Lemma rotation_cross m a b : rotation m -> mvec m (cross a b) = cross (mvec m a) (mvec m b).
Proof.
  intros (H1 & _ & H3). pose proof (cofactor m a b) as C. rewrite H3 in C.
  replace (vscale 1 (cross a b)) with (cross a b) in C by v3.
  rewrite <- C, <- mvec_mmul, H1, mvec_mid. reflexivity.
Qed.

Lemma qmul_assoc a b c : qmul (qmul a b) c = qmul a (qmul b c).
Proof. q4. Qed.
Lemma qmul_id_l a : qmul qid a = a.
Proof. q4. Qed.
Lemma qmul_id_r a : qmul a qid = a.
Proof. q4. Qed.
Lemma qnorm2_mul a b : qnorm2 (qmul a b) = qnorm2 a * qnorm2 b.
Proof. gunf. ring. Qed.
Lemma qnorm2_pos a : 0 <= qnorm2 a.
Proof. unfold qnorm2. nra. Qed.
Lemma qmul_conj a : qmul a (qconj a) = mkQ (qnorm2 a) 0 0 0.
Proof. q4. Qed.
(** the matrix of a unit quaternion is a rotation *)
Lemma qrot_norm q v : qnorm2 q = 1 -> norm (qrot q v) = norm v.
Proof.
  intros H. unfold norm. f_equal.
  assert (norm2 (qrot q v) = norm2 v + 4 * (qnorm2 q - 1) * norm2 (cross (qvec q) v)) as E.
  { gunf. ring. }
  rewrite E, H. ring.
Qed.
Lemma qrot_add q a b : qrot q (vadd a b) = vadd (qrot q a) (qrot q b).
Proof. v3. Qed.
Lemma qrot_scale q k a : qrot q (vscale k a) = vscale k (qrot q a).
Proof. v3. Qed.
Lemma qrot_id v : qrot qid v = v.
Proof. v3. Qed.
(** q v q* in homogeneous form *)
Definition qsand (q : Quat) (v : V3) : V3 :=
  vadd (vadd (vscale (qw q * qw q - norm2 (qvec q)) v) (vscale (2 * dot (qvec q) v) (qvec q))) (vscale (2 * qw q) (cross (qvec q) v)).
Lemma qrot_sand q v : qrot q v = vadd (qsand q v) (vscale (1 - qnorm2 q) v).
Proof. unfold qsand. v3. Qed.
Lemma qsand_mul p q v : qsand (qmul p q) v = qsand p (qsand q v).
Proof. unfold qsand. v3. Qed.
Lemma qrot_unit q v : qnorm2 q = 1 -> qrot q v = qsand q v.
Proof. intros H. rewrite qrot_sand, H. v3. Qed.
Lemma qrot_mul p q v : qnorm2 p = 1 -> qnorm2 q = 1 -> qrot (qmul p q) v = qrot p (qrot q v).
Proof.
  intros Hp Hq. rewrite !qrot_unit; auto.
  - apply qsand_mul.
  - rewrite qnorm2_mul, Hp, Hq. ring.
Qed.
