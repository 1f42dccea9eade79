(** C67, C68: IMU predictions and their Jacobians. *)
From Coq Require Import Reals Lra Psatz.
From Coquelicot Require Import Coquelicot.
From Verif Require Import Outcome Geo Integration Props_Integration Transform.
Open Scope R_scope.

(** the derivative of a vector valued function of one variable *)
Definition is_vderive (f : R -> V3) (s : R) (l : V3) : Prop :=
  is_derive (fun x => vx (f x)) s (vx l) /\ is_derive (fun x => vy (f x)) s (vy l) /\ is_derive (fun x => vz (f x)) s (vz l).

(** rotation by an angle about a unit axis, and the orientation with fixed axis roll, pitch and yaw
    (rotate about x by roll, then about y by pitch, then about z by yaw) *)
Definition axis_angle (k : V3) (theta : R) : Quat :=
  mkQ (cos (theta / 2)) (sin (theta / 2) * vx k) (sin (theta / 2) * vy k) (sin (theta / 2) * vz k).
Definition rpy_orientation (rpy : V3) : Quat :=
  qmul (qmul (axis_angle (mkV 0 0 1) (vz rpy)) (axis_angle (mkV 0 1 0) (vy rpy))) (axis_angle (mkV 1 0 0) (vx rpy)).
(** the Jacobian applied to changes of acceleration, roll/pitch/yaw and rates *)
Definition aj_apply (J : AccelJac) (da drpy dw : V3) : V3 :=
  vadd (mvec (aj_accel J) da)
   (vadd (vadd (vadd (vscale (vx drpy) (aj_phi J)) (vscale (vy drpy) (aj_theta J))) (vscale (vz drpy) (aj_psi J)))
         (vadd (vadd (vscale (vx dw) (aj_wx J)) (vscale (vy dw) (aj_wy J))) (vscale (vz dw) (aj_wz J)))).

Lemma aa_norm k t : norm2 k = 1 -> qnorm2 (axis_angle k t) = 1.
Proof.
  intros Hk. pose proof (sin2_cos2 (t / 2)) as S. unfold Rsqr in S.
  assert (qnorm2 (axis_angle k t) = cos (t / 2) * cos (t / 2) + sin (t / 2) * sin (t / 2) * norm2 k) as -> by (unfold axis_angle; gunf; ring).
  rewrite Hk. lra.
Qed.
Lemma aa_rot k t v : norm2 k = 1 -> qrot (axis_angle k t) v = rodrigues k t v.
Proof. intros Hk. rewrite qrot_unit by (apply aa_norm, Hk). unfold axis_angle. rewrite half_angle by exact Hk. f_equal. field. Qed.
Lemma e_unit : norm2 (mkV 1 0 0) = 1 /\ norm2 (mkV 0 1 0) = 1 /\ norm2 (mkV 0 0 1) = 1.
Proof. repeat split; gunf; ring. Qed.
(** where gravity points after roll, pitch and yaw *)
Definition up_dir (rpy : V3) : V3 :=
  mkV (cos (vx rpy) * sin (vy rpy) * cos (vz rpy) + sin (vx rpy) * sin (vz rpy))
      (cos (vx rpy) * sin (vy rpy) * sin (vz rpy) - sin (vx rpy) * cos (vz rpy))
      (cos (vx rpy) * cos (vy rpy)).
Lemma rpy_up rpy g : qrot (rpy_orientation rpy) (mkV 0 0 g) = vscale g (up_dir rpy).
Proof.
  destruct e_unit as (Ex & Ey & Ez). unfold rpy_orientation.
  rewrite !qrot_mul by (rewrite ?qnorm2_mul, ?aa_norm by assumption; ring). rewrite !aa_rot by assumption.
  unfold up_dir.
  assert (rodrigues (mkV 1 0 0) (vx rpy) (mkV 0 0 g) = mkV 0 (- g * sin (vx rpy)) (g * cos (vx rpy))) as -> by (unfold rodrigues; v3).
  assert (forall a b c t, rodrigues (mkV 0 1 0) t (mkV a b c) = mkV (cos t * a + sin t * c) b (cos t * c - sin t * a)) as -> by (intros; unfold rodrigues; v3).
  assert (forall a b c t, rodrigues (mkV 0 0 1) t (mkV a b c) = mkV (cos t * a - sin t * b) (cos t * b + sin t * a) c) as -> by (intros; unfold rodrigues; v3).
  v3.
Qed.

Lemma vderive_ext f g s l : (forall x, f x = g x) -> is_vderive f s l -> is_vderive g s l.
Proof. intros H (A & B & C). split; [|split]; (eapply is_derive_ext; [|eassumption]); intros; simpl; rewrite H; reflexivity. Qed.
Lemma vderive_add f g s a b : is_vderive f s a -> is_vderive g s b -> is_vderive (fun x => vadd (f x) (g x)) s (vadd a b).
Proof. intros (A & B & C) (A' & B' & C'). split; [|split]; unfold vadd; cbn [vx vy vz]; apply (is_derive_plus (K := R_AbsRing) (V := R_NormedModule)); assumption. Qed.
Lemma vderive_mvec m f s a : is_vderive f s a -> is_vderive (fun x => mvec m (f x)) s (mvec m a).
Proof.
  intros (A & B & C). split; [|split]; unfold mvec, dot; cbn [vx vy vz].
  all: apply (is_derive_plus (fun x => _ + _) (fun x => _ * _)); [apply (is_derive_plus (fun x => _ * _) (fun x => _ * _))|].
  all: apply is_derive_scal; assumption.
Qed.
Lemma vderive_lin a d s : is_vderive (fun x => vadd a (vscale x d)) s d.
Proof. split; [|split]; unfold vadd, vscale; cbn [vx vy vz]; auto_derive; auto; ring. Qed.

(** along every straight line through the state (so in particular for every single variable) the
    prediction changes at the rate given by the Jacobian *)
Theorem C67_accel_with_gravity (a w rpy da dw drpy : V3) (tf : Iso) (g : R) :
  exists f, (forall s, predictAccelMeasurement (vadd a (vscale s da)) (vadd w (vscale s dw)) tf true
                 (Some (rpy_orientation (vadd rpy (vscale s drpy)))) g = Ok (f s))
   /\ is_vderive f 0 (aj_apply (accelMeasurementJacobian w tf true rpy g) da drpy dw).
Proof.
  eexists. split; [intros s; cbn [predictAccelMeasurement]; reflexivity|]. cbv beta.
  unfold transformLinearAcceleration.
  set (t := it tf). set (M := iR tf).
  (* the three parts inside the rotation *)
  set (dg := vscale g (vadd (vadd
      (vscale (vx drpy) (mkV (- sin (vx rpy) * sin (vy rpy) * cos (vz rpy) + cos (vx rpy) * sin (vz rpy)) (- sin (vx rpy) * sin (vy rpy) * sin (vz rpy) - cos (vx rpy) * cos (vz rpy)) (- sin (vx rpy) * cos (vy rpy))))
      (vscale (vy drpy) (mkV (cos (vx rpy) * cos (vy rpy) * cos (vz rpy)) (cos (vx rpy) * cos (vy rpy) * sin (vz rpy)) (- cos (vx rpy) * sin (vy rpy)))))
      (vscale (vz drpy) (mkV (- cos (vx rpy) * sin (vy rpy) * sin (vz rpy) + sin (vx rpy) * cos (vz rpy)) (cos (vx rpy) * sin (vy rpy) * cos (vz rpy) + sin (vx rpy) * sin (vz rpy)) 0)))).
  set (dc := vadd (cross dw (cross w t)) (cross w (cross dw t))).
  assert (aj_apply (accelMeasurementJacobian w tf true rpy g) da drpy dw = mvec M (vadd (vadd da dg) dc)) as ->.
  { unfold aj_apply, accelMeasurementJacobian. cbn [aj_accel aj_phi aj_theta aj_psi aj_wx aj_wy aj_wz]. fold M t. unfold dg, dc.
    assert (forall k u, mvec (mscale k M) u = vscale k (mvec M u)) as Hm by (intros; v3). rewrite !Hm, !mvec_add, !mvec_scale, !mvec_add, !mvec_scale.
    assert (dw = vadd (vadd (vscale (vx dw) (mkV 1 0 0)) (vscale (vy dw) (mkV 0 1 0))) (vscale (vz dw) (mkV 0 0 1))) as Edw by v3.
    assert (cross dw (cross w t) = vadd (vadd (vscale (vx dw) (cross (mkV 1 0 0) (cross w t))) (vscale (vy dw) (cross (mkV 0 1 0) (cross w t)))) (vscale (vz dw) (cross (mkV 0 0 1) (cross w t)))) as ->.
    { generalize (cross w t). intros u. v3. }
    assert (cross w (cross dw t) = vadd (vadd (vscale (vx dw) (cross w (cross (mkV 1 0 0) t))) (vscale (vy dw) (cross w (cross (mkV 0 1 0) t)))) (vscale (vz dw) (cross w (cross (mkV 0 0 1) t)))) as -> by v3.
    rewrite !mvec_add, !mvec_scale.
    generalize (cross w t). intros u. generalize (mvec M (cross (mkV 1 0 0) u)) (mvec M (cross (mkV 0 1 0) u)) (mvec M (cross (mkV 0 0 1) u)).
    generalize (mvec M (cross w (cross (mkV 1 0 0) t))) (mvec M (cross w (cross (mkV 0 1 0) t))) (mvec M (cross w (cross (mkV 0 0 1) t))).
    generalize (mvec M da).
    match goal with |- context [vscale (vx drpy) (vscale g ?X)] => generalize X end.
    match goal with |- context [vscale (vy drpy) (vscale g ?X)] => generalize X end.
    match goal with |- context [vscale (vz drpy) (vscale g ?X)] => generalize X end.
    intros. v3. }
  apply vderive_mvec, vderive_add; [apply vderive_add; [apply vderive_lin|]|].
  - eapply vderive_ext; [intros x; symmetry; apply rpy_up|]. unfold dg, up_dir, vadd, vscale; gproj.
    split; [|split]; gproj; auto_derive; auto; rewrite ?Rmult_0_l, ?Rplus_0_r; ring.
  - unfold dc. split; [|split]; unfold cross, vadd, vscale; gproj; auto_derive; auto; ring.
Qed.
Theorem C67_accel_without_gravity (a w rpy da dw drpy : V3) (tf : Iso) (q : option Quat) (g : R) :
  exists f, (forall s, predictAccelMeasurement (vadd a (vscale s da)) (vadd w (vscale s dw)) tf false q g = Ok (f s))
   /\ is_vderive f 0 (aj_apply (accelMeasurementJacobian w tf false rpy g) da drpy dw).
Proof.
  eexists. split; [intros s; cbn [predictAccelMeasurement]; reflexivity|]. cbv beta. unfold transformLinearAcceleration.
  set (t := it tf). set (M := iR tf). set (dc := vadd (cross dw (cross w t)) (cross w (cross dw t))).
  assert (aj_apply (accelMeasurementJacobian w tf false rpy g) da drpy dw = mvec M (vadd da dc)) as ->.
  { unfold aj_apply, accelMeasurementJacobian. cbn [aj_accel aj_phi aj_theta aj_psi aj_wx aj_wy aj_wz]. fold M t. unfold dc.
    assert (cross dw (cross w t) = vadd (vadd (vscale (vx dw) (cross (mkV 1 0 0) (cross w t))) (vscale (vy dw) (cross (mkV 0 1 0) (cross w t)))) (vscale (vz dw) (cross (mkV 0 0 1) (cross w t)))) as ->.
    { generalize (cross w t). intros u. v3. }
    assert (cross w (cross dw t) = vadd (vadd (vscale (vx dw) (cross w (cross (mkV 1 0 0) t))) (vscale (vy dw) (cross w (cross (mkV 0 1 0) t)))) (vscale (vz dw) (cross w (cross (mkV 0 0 1) t)))) as -> by v3.
    rewrite ?mvec_add, ?mvec_scale, ?mvec_add, ?mvec_scale.
    generalize (cross w t). intros u. generalize (mvec M (cross (mkV 1 0 0) u)) (mvec M (cross (mkV 0 1 0) u)) (mvec M (cross (mkV 0 0 1) u)).
    generalize (mvec M (cross w (cross (mkV 1 0 0) t))) (mvec M (cross w (cross (mkV 0 1 0) t))) (mvec M (cross w (cross (mkV 0 0 1) t))).
    generalize (mvec M da). intros. v3. }
  apply vderive_mvec, vderive_add; [apply vderive_lin|].
  unfold dc. split; [|split]; unfold cross, vadd, vscale; gproj; auto_derive; auto; ring.
Qed.
Theorem C67_gyro (w dw : V3) (M : M3) :
  is_vderive (fun s => predictGyroMeasurement (vadd w (vscale s dw)) M) 0 (mvec (gyroMeasurementJacobian M) dw).
Proof. unfold predictGyroMeasurement, transformAngularVelocity, gyroMeasurementJacobian. apply vderive_mvec, vderive_lin. Qed.
(** derivatives are unique, so no other matrix has this property *)
Theorem C67_unique (f : R -> V3) (s : R) (l l' : V3) : is_vderive f s l -> is_vderive f s l' -> l = l'.
Proof.
  intros (A & B & C) (A' & B' & C').
  apply is_derive_unique in A. apply is_derive_unique in B. apply is_derive_unique in C.
  apply is_derive_unique in A'. apply is_derive_unique in B'. apply is_derive_unique in C'.
  apply V3_eq; congruence.
Qed.
(** the roll column at the zero attitude: rolling turns the measured gravity from z towards -y *)
Example C67_nonvacuous : aj_phi (accelMeasurementJacobian vzero iso_id true vzero 10) = mkV 0 (-10) 0.
Proof.
  unfold accelMeasurementJacobian. cbn [aj_phi]. unfold vzero, iso_id; cbn [vx vy vz iR it]. rewrite sin_0, cos_0. v3.
Qed.

(** ** C68 *)
Definition C68_claim : Prop := forall (a w : V3) (tf : Iso), exists v, predictAccelMeasurement a w tf true None g_default = Ok v.
Theorem C68_refuted : ~ C68_claim.
Proof. intros H. destruct (H vzero vzero iso_id) as [v E]. discriminate. Qed.
(** never defined, whatever the arguments *)
Theorem C68_always_uninitialised (a w : V3) (tf : Iso) (g : R) : predictAccelMeasurement a w tf true None g = Ub ub_uninit.
Proof. reflexivity. Qed.
(** defined with an explicit orientation, or without gravity; a level unrotated sensor at rest reads (0, 0, g) *)
Theorem C68_partial (a w : V3) (tf : Iso) (g : R) (q : Quat) (o : option Quat) :
  predictAccelMeasurement a w tf true (Some q) g = Ok (transformLinearAcceleration (vadd a (qrot q (mkV 0 0 g))) w tf)
  /\ predictAccelMeasurement a w tf false o g = Ok (transformLinearAcceleration a w tf)
  /\ predictAccelMeasurement vzero vzero iso_id true (Some qid) g = Ok (mkV 0 0 g).
Proof. split; [reflexivity|]. split; [reflexivity|]. cbn [predictAccelMeasurement]. f_equal. unfold transformLinearAcceleration, iso_id. cbn [iR it]. v3. Qed.
