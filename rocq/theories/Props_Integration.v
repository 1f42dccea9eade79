(** C59 - C62: integration of angular rates, velocity and position. *)
From Coq Require Import Reals Lra Psatz.
From Coquelicot Require Import Coquelicot.
From Verif Require Import Geo Integration.
Open Scope R_scope.

(** the threshold below which deltaQuaternion returns the identity *)
Definition eps : R := 1 / 1000000000.
Lemma dq_big dt w : eps < norm w -> let h := 1 / 2 * dt * norm w in let c := sin h / norm w in
  deltaQuaternion dt w = mkQ (cos h) (c * vx w) (c * vy w) (c * vz w).
Proof. unfold eps. intros H. unfold deltaQuaternion. destruct (Rlt_dec _ _); [reflexivity|lra]. Qed.
Lemma dq_small dt w : norm w <= eps -> deltaQuaternion dt w = qid.
Proof. unfold eps. intros H. unfold deltaQuaternion. destruct (Rlt_dec _ _); [lra|reflexivity]. Qed.
Lemma dq_cases w : norm w <= eps \/ eps < norm w.
Proof. destruct (Rlt_dec eps (norm w)); [right|left]; lra. Qed.
Lemma comp_sq w : vx w * vx w + vy w * vy w + vz w * vz w = norm w * norm w.
Proof. rewrite norm_sq. unfold norm2, dot. ring. Qed.

(** ** C59 *)
Theorem C59_unit (dt : R) (w : V3) : qnorm2 (deltaQuaternion dt w) = 1 /\ qnorm (deltaQuaternion dt w) = 1.
Proof.
  assert (qnorm2 (deltaQuaternion dt w) = 1) as H.
  { destruct (dq_cases w) as [H|H].
    - rewrite dq_small by exact H. unfold qnorm2, qid; cbn. ring.
    - rewrite dq_big by exact H. cbv zeta. unfold qnorm2; cbn [qw qx qy qz]. set (h := 1 / 2 * dt * norm w).
      pose proof (comp_sq w) as E. pose proof (sin2_cos2 h) as S. unfold Rsqr in S. unfold eps in H.
      transitivity (cos h * cos h + (sin h / norm w) * (sin h / norm w) * (vx w * vx w + vy w * vy w + vz w * vz w)); [ring|].
      rewrite E. transitivity (sin h * sin h + cos h * cos h); [field; lra|exact S]. }
  split; [exact H|]. unfold qnorm. rewrite H. apply sqrt_1.
Qed.
Theorem C59_compose (dt1 dt2 : R) (w : V3) :
  qmul (deltaQuaternion dt1 w) (deltaQuaternion dt2 w) = deltaQuaternion (dt1 + dt2) w.
Proof.
  destruct (dq_cases w) as [H|H].
  - rewrite !dq_small by exact H. apply qmul_id_l.
  - rewrite !dq_big by exact H. cbv zeta. unfold eps in H. set (n := norm w) in *.
    replace (1 / 2 * (dt1 + dt2) * n) with (1 / 2 * dt1 * n + 1 / 2 * dt2 * n) by ring.
    set (h1 := 1 / 2 * dt1 * n). set (h2 := 1 / 2 * dt2 * n). rewrite cos_plus, sin_plus.
    pose proof (comp_sq w) as E. fold n in E.
    apply Quat_eq; unfold qmul; cbn [qw qx qy qz]; try (field; lra).
    transitivity (cos h1 * cos h2 - (sin h1 / n) * (sin h2 / n) * (vx w * vx w + vy w * vy w + vz w * vz w)); [ring|].
    rewrite E. field. lra.
Qed.
Theorem C59_zero_time (w : V3) : deltaQuaternion 0 w = qid.
Proof.
  destruct (dq_cases w) as [H|H]; [apply dq_small, H|]. rewrite dq_big by exact H. cbv zeta. unfold eps in H.
  replace (1 / 2 * 0 * norm w) with 0 by ring. rewrite cos_0, sin_0. unfold qid. f_equal; field; lra.
Qed.
(** deltaQuaternion(-dt, w) is the inverse: the conjugate, and both products are the identity *)
Theorem C59_inverse (dt : R) (w : V3) :
  deltaQuaternion (- dt) w = qconj (deltaQuaternion dt w)
  /\ qmul (deltaQuaternion dt w) (deltaQuaternion (- dt) w) = qid
  /\ qmul (deltaQuaternion (- dt) w) (deltaQuaternion dt w) = qid.
Proof.
  split; [|rewrite !C59_compose; replace (dt + - dt) with 0 by ring; replace (- dt + dt) with 0 by ring; rewrite C59_zero_time; auto].
  destruct (dq_cases w) as [H|H].
  - rewrite !dq_small by exact H. apply Quat_eq; cbn; ring.
  - rewrite !dq_big by exact H. cbv zeta. replace (1 / 2 * - dt * norm w) with (- (1 / 2 * dt * norm w)) by ring.
    rewrite cos_neg, sin_neg. unfold eps in H. unfold qconj; cbn [qw qx qy qz]. f_equal; field; lra.
Qed.
Theorem C59_integrate (dt dt1 dt2 : R) (q : Quat) (w : V3) :
  qnorm (integrate dt q w) = qnorm q
  /\ integrate dt2 (integrate dt1 q w) w = integrate (dt1 + dt2) q w
  /\ integrate (- dt) (integrate dt q w) w = q
  /\ integrate 0 q w = q.
Proof.
  unfold integrate. split; [|split; [|split]].
  - unfold qnorm. rewrite qnorm2_mul, (proj1 (C59_unit dt w)), Rmult_1_r. reflexivity.
  - rewrite qmul_assoc, C59_compose. reflexivity.
  - rewrite qmul_assoc, (proj1 (proj2 (C59_inverse dt w))), qmul_id_r. reflexivity.
  - rewrite C59_zero_time. apply qmul_id_r.
Qed.
Lemma norm_z n : 0 <= n -> norm (mkV 0 0 n) = n.
Proof.
  intros H. unfold norm. replace (norm2 (mkV 0 0 n)) with (n * n) by (unfold norm2, dot; cbn; ring). apply sqrt_square, H.
Qed.
Example C59_nonvacuous : eps < norm (mkV 0 0 PI) /\ deltaQuaternion 1 (mkV 0 0 PI) = mkQ 0 0 0 1.
Proof.
  pose proof PI_RGT_0. pose proof PI_4. pose proof PI2_1. assert (eps < norm (mkV 0 0 PI)) as H3.
  { rewrite norm_z by lra. unfold eps. lra. }
  split; [exact H3|]. rewrite dq_big by exact H3. rewrite norm_z by lra. cbn [vx vy vz].
  replace (1 / 2 * 1 * PI) with (PI / 2) by field. rewrite cos_PI2, sin_PI2. f_equal; field; lra.
Qed.

(** ** C60 *)
(** Rodrigues' formula: v turned by the angle theta about the unit axis k *)
Definition rodrigues (k : V3) (theta : R) (v : V3) : V3 :=
  vadd (vadd (vscale (cos theta) v) (vscale (sin theta) (cross k v))) (vscale ((1 - cos theta) * dot k v) k).
Definition axis (w : V3) : V3 := vscale (/ norm w) w.

Lemma axis_unit w : norm w <> 0 -> norm2 (axis w) = 1.
Proof.
  intros H. unfold axis. replace (norm2 (vscale (/ norm w) w)) with (/ norm w * / norm w * norm2 w) by (unfold norm2, dot; cbn; ring).
  rewrite <- norm_sq. field. exact H.
Qed.
Lemma half_angle k h v : norm2 k = 1 ->
  qsand (mkQ (cos h) (sin h * vx k) (sin h * vy k) (sin h * vz k)) v = rodrigues k (2 * h) v.
Proof.
  intros Hk. unfold rodrigues. rewrite cos_2a, sin_2a. pose proof (sin2_cos2 h) as S. unfold Rsqr in S.
  set (s := sin h) in *. set (c := cos h) in *. unfold norm2, dot in Hk.
  assert (1 - (c * c - s * s) = 2 * (s * s)) as -> by lra.
  unfold qsand.
  replace (norm2 (qvec (mkQ c (s * vx k) (s * vy k) (s * vz k)))) with (s * s * (vx k * vx k + vy k * vy k + vz k * vz k)) by (gunf; ring).
  rewrite Hk. v3.
Qed.
Theorem C60_rodrigues (dt : R) (w v : V3) : eps < norm w ->
  qrot (deltaQuaternion dt w) v = rodrigues (axis w) (norm w * dt) v.
Proof.
  intros H. rewrite qrot_unit by apply C59_unit. rewrite dq_big by exact H. cbv zeta.
  set (h := 1 / 2 * dt * norm w). replace (norm w * dt) with (2 * h) by (unfold h; field). unfold eps in H.
  rewrite <- half_angle by (apply axis_unit; lra). f_equal. unfold axis, vscale; cbn [vx vy vz]. f_equal; field; lra.
Qed.
Theorem C60_axis_fixed (dt k : R) (w : V3) : qrot (deltaQuaternion dt w) (vscale k w) = vscale k w.
Proof.
  destruct (dq_cases w) as [H|H].
  - rewrite dq_small by exact H. apply qrot_id.
  - rewrite dq_big by exact H. cbv zeta. generalize (sin (1 / 2 * dt * norm w) / norm w) (cos (1 / 2 * dt * norm w)). intros. v3.
Qed.
Theorem C60_length (dt : R) (w v : V3) : norm (qrot (deltaQuaternion dt w) v) = norm v.
Proof. apply qrot_norm, C59_unit. Qed.
Theorem C60_dot (dt : R) (w u v : V3) : dot (qrot (deltaQuaternion dt w) u) (qrot (deltaQuaternion dt w) v) = dot u v.
Proof.
  assert (forall a b, dot a b = (norm2 (vadd a b) - norm2 a - norm2 b) / 2) as P by (intros; unfold norm2, dot; cbn; field).
  assert (forall a, norm2 (qrot (deltaQuaternion dt w) a) = norm2 a) as N by (intros; rewrite <- !norm_sq, C60_length; reflexivity).
  rewrite !P, <- qrot_add, !N. reflexivity.
Qed.
(** below the threshold nothing is rotated *)
Theorem C60_small (dt : R) (w v : V3) : norm w <= eps -> qrot (deltaQuaternion dt w) v = v.
Proof. intros H. rewrite dq_small by exact H. apply qrot_id. Qed.
(** a quarter turn about z takes x to y *)
Example C60_nonvacuous : qrot (deltaQuaternion 1 (mkV 0 0 (PI / 2))) (mkV 1 0 0) = mkV 0 1 0.
Proof.
  pose proof PI_RGT_0. pose proof PI2_1. assert (norm (mkV 0 0 (PI / 2)) = PI / 2) as N by (apply norm_z; lra).
  rewrite C60_rodrigues by (rewrite N; unfold eps; lra). unfold rodrigues, axis. rewrite N, Rmult_1_r, cos_PI2, sin_PI2.
  apply V3_eq; gunf; field; lra.
Qed.

(** ** C61 *)
Theorem C61_frame (dt : R) (a w v : V3) : integrateVelocityRK4 dt a w v = vadd v (integrateVelocityRK4 dt a w vzero).
Proof. unfold integrateVelocityRK4. generalize (qrot (deltaQuaternion (1 / 2 * dt) w) a) (qrot (deltaQuaternion dt w) a). intros. v3. Qed.
(** Simpson's rule for the rotated acceleration, written out *)
Theorem C61_simpson (dt : R) (a w : V3) : integrateVelocityRK4 dt a w vzero =
  vscale (dt / 6) (vadd (vadd a (vscale 4 (qrot (deltaQuaternion (dt / 2) w) a))) (qrot (deltaQuaternion dt w) a)).
Proof. unfold integrateVelocityRK4. replace (1 / 2 * dt) with (dt / 2) by field.
  generalize (qrot (deltaQuaternion (dt / 2) w) a) (qrot (deltaQuaternion dt w) a). intros. apply V3_eq; gunf; field. Qed.
Theorem C61_no_rotation (dt : R) (a v : V3) : integrateVelocityRK4 dt a vzero v = vadd v (vscale dt a).
Proof.
  rewrite C61_frame, C61_simpson, !C60_small by (rewrite norm_zero; unfold eps; lra). apply V3_eq; gunf; field.
Qed.
Theorem C61_along_axis (dt k : R) (w v : V3) : integrateVelocityRK4 dt (vscale k w) w v = vadd v (vscale dt (vscale k w)).
Proof. rewrite C61_frame, C61_simpson, !C60_axis_fixed. apply V3_eq; gunf; field. Qed.
Theorem C61_no_overshoot (dt : R) (a w : V3) : norm (integrateVelocityRK4 dt a w vzero) <= Rabs dt * norm a.
Proof.
  rewrite C61_simpson, norm_scale. unfold Rdiv at 1. rewrite Rabs_mult, (Rabs_pos_eq (/ 6)) by lra.
  assert (norm (vadd (vadd a (vscale 4 (qrot (deltaQuaternion (dt / 2) w) a))) (qrot (deltaQuaternion dt w) a)) <= 6 * norm a) as H.
  { eapply Rle_trans; [apply norm_triangle|]. eapply Rle_trans; [apply Rplus_le_compat_r, norm_triangle|].
    rewrite norm_scale, !C60_length, Rabs_pos_eq by lra. lra. }
  rewrite Rmult_assoc. apply Rmult_le_compat_l; [apply Rabs_pos|]. lra.
Qed.

(** the exact velocity change: the integral over the step of the acceleration, which keeps its
    direction in the body while the body turns with rate w *)
Definition turned (w : V3) (s : R) (a : V3) : V3 := rodrigues (axis w) (norm w * s) a.
Definition is_dv (dt : R) (a w dv : V3) : Prop :=
  is_RInt (fun s => vx (turned w s a)) 0 dt (vx dv) /\ is_RInt (fun s => vy (turned w s a)) 0 dt (vy dv)
  /\ is_RInt (fun s => vz (turned w s a)) 0 dt (vz dv).
(** in closed form *)
Definition dv_exact (dt : R) (a w : V3) : V3 :=
  let n := norm w in let k := axis w in
  vadd (vadd (vscale (sin (n * dt) / n) a) (vscale ((1 - cos (n * dt)) / n) (cross k a))) (vscale ((dt - sin (n * dt) / n) * dot k a) k).

Lemma RInt_turned n dt A B C : n <> 0 ->
  is_RInt (fun s => cos (n * s) * A + sin (n * s) * B + (1 - cos (n * s)) * C) 0 dt
    (sin (n * dt) / n * A + (1 - cos (n * dt)) / n * B + (dt - sin (n * dt) / n) * C).
Proof.
  intros Hn. set (F := fun s => sin (n * s) / n * A + (1 - cos (n * s)) / n * B + (s - sin (n * s) / n) * C).
  replace (sin (n * dt) / n * A + (1 - cos (n * dt)) / n * B + (dt - sin (n * dt) / n) * C) with (minus (F dt) (F 0)).
  - apply (is_RInt_derive F).
    + intros x _. unfold F. auto_derive; [exact I|]. field. exact Hn.
    + intros x _. apply (ex_derive_continuous (fun s => cos (n * s) * A + sin (n * s) * B + (1 - cos (n * s)) * C)). auto_derive. exact I.
  - unfold F, minus, plus, opp; cbn. rewrite Rmult_0_r, sin_0, cos_0. field. exact Hn.
Qed.
Lemma RInt_turned' n dt A B C (f : R -> R) l : n <> 0 ->
  (forall s, f s = cos (n * s) * A + sin (n * s) * B + (1 - cos (n * s)) * C) ->
  l = sin (n * dt) / n * A + (1 - cos (n * dt)) / n * B + (dt - sin (n * dt) / n) * C -> is_RInt f 0 dt l.
Proof. intros Hn Hf ->. eapply is_RInt_ext; [|apply RInt_turned, Hn]. intros x _. symmetry. apply Hf. Qed.
Theorem C61_exact_integral (dt : R) (a w : V3) : norm w <> 0 -> is_dv dt a w (dv_exact dt a w).
Proof.
  intros Hn. unfold is_dv, dv_exact, turned, rodrigues. cbv zeta.
  set (n := norm w) in *. generalize (axis w) as k. intros k. generalize (dot k a) (cross k a). intros d c.
  split; [|split].
  - apply (RInt_turned' n dt (vx a) (vx c) (d * vx k)); [exact Hn| |]; intros; unfold vadd, vscale; gproj; ring.
  - apply (RInt_turned' n dt (vy a) (vy c) (d * vy k)); [exact Hn| |]; intros; unfold vadd, vscale; gproj; ring.
  - apply (RInt_turned' n dt (vz a) (vz c) (d * vz k)); [exact Hn| |]; intros; unfold vadd, vscale; gproj; ring.
Qed.

(** a function whose slope is bounded is bounded *)
Lemma slope_bound (f g df dg : R -> R) :
  (forall x, is_derive f x (df x)) -> (forall x, is_derive g x (dg x)) -> f 0 = 0 -> g 0 = 0 ->
  (forall x, 0 <= x -> Rabs (df x) <= dg x) -> forall x, 0 <= x -> Rabs (f x) <= g x.
Proof.
  intros Hf Hg F0 G0 Hd.
  assert (forall (u du : R -> R), (forall x, is_derive u x (du x)) -> u 0 = 0 -> (forall x, 0 <= x -> 0 <= du x) -> forall x, 0 <= x -> 0 <= u x) as M.
  { intros u du Hu U0 Hp x Hx. destruct (MVT_gen u 0 x du) as (c & Hc & E).
    - intros y _. apply Hu.
    - intros y _. apply continuity_pt_filterlim, (ex_derive_continuous u). eexists. apply Hu.
    - rewrite Rmin_left, Rmax_right in Hc by exact Hx. rewrite U0 in E.
      assert (0 <= du c * (x - 0)) by (apply Rmult_le_pos; [apply Hp|]; lra). lra. }
  intros x Hx. apply Rabs_le. split.
  - assert (0 <= g x + f x); [|lra]. apply (M (fun x => g x + f x) (fun x => dg x + df x)); auto.
    + intros y. apply (is_derive_plus g f); auto.
    + lra.
    + intros y Hy. specialize (Hd y Hy). apply Rabs_le_between in Hd. lra.
  - assert (0 <= g x - f x); [|lra]. apply (M (fun x => g x - f x) (fun x => dg x - df x)); auto.
    + intros y. apply (is_derive_minus g f); auto.
    + lra.
    + intros y Hy. specialize (Hd y Hy). apply Rabs_le_between in Hd. lra.
Qed.
Lemma sin_le_abs x : 0 <= x -> Rabs (sin x) <= x.
Proof.
  apply (slope_bound sin (fun x => x) cos (fun _ => 1)).
  - intros y. auto_derive; [exact I|ring].
  - intros y. auto_derive; [exact I|ring].
  - apply sin_0.
  - reflexivity.
  - intros y _. apply Rabs_le, COS_bound.
Qed.
Lemma cos_le_sq x : 0 <= x -> Rabs (1 - cos x) <= x * x / 2.
Proof.
  apply (slope_bound (fun x => 1 - cos x) (fun x => x * x / 2) sin (fun x => x)).
  - intros y. auto_derive; [exact I|ring].
  - intros y. auto_derive; [exact I|field].
  - rewrite cos_0. ring.
  - field.
  - apply sin_le_abs.
Qed.
(** the error of Simpson's rule for a sinusoid *)
Lemma simpson_sin h : Rabs (h * (2 + cos h) / 3 - sin h) <= Rabs h ^ 5 / 180.
Proof.
  assert (forall x, 0 <= x -> Rabs (x * (2 + cos x) / 3 - sin x) <= x ^ 5 / 180) as H.
  { apply (slope_bound _ _ (fun x => (2 - 2 * cos x - x * sin x) / 3) (fun x => x ^ 4 / 36)).
    - intros y. auto_derive; [exact I|field].
    - intros y. auto_derive; [exact I|simpl; field].
    - rewrite sin_0. field.
    - simpl. field.
    - apply (slope_bound _ _ (fun x => (sin x - x * cos x) / 3) (fun x => x ^ 3 / 9)).
      + intros y. auto_derive; [exact I|field].
      + intros y. auto_derive; [exact I|simpl; field].
      + rewrite cos_0, sin_0. field.
      + simpl. field.
      + apply (slope_bound _ _ (fun x => x * sin x / 3) (fun x => x ^ 2 / 3)).
        * intros y. auto_derive; [exact I|field].
        * intros y. auto_derive; [exact I|simpl; field].
        * rewrite cos_0, sin_0. field.
        * simpl. field.
        * intros y Hy. pose proof (sin_le_abs y Hy) as S. unfold Rdiv. rewrite !Rabs_mult, (Rabs_pos_eq y), (Rabs_pos_eq (/ 3)) by lra.
          simpl. nra. }
  destruct (Rle_dec 0 h) as [Hh|Hh].
  - rewrite (Rabs_pos_eq h) by exact Hh. apply H, Hh.
  - rewrite (Rabs_left h) by lra. specialize (H (- h)). rewrite cos_neg, sin_neg in H.
    replace (- h * (2 + cos h) / 3 - - sin h) with (- (h * (2 + cos h) / 3 - sin h)) in H by field. rewrite Rabs_Ropp in H. apply H. lra.
Qed.

Lemma perp_norm k a p q : norm2 k = 1 ->
  norm2 (vadd (vscale p (vsub a (vscale (dot k a) k))) (vscale q (cross k a))) = (p * p + q * q) * (norm2 a - dot k a * dot k a).
Proof.
  intros Hk.
  transitivity (p * p * (norm2 a - 2 * (dot k a * dot k a) + dot k a * dot k a * norm2 k) + q * q * (norm2 k * norm2 a - dot k a * dot k a)).
  - gunf. ring.
  - rewrite Hk. ring.
Qed.
(** the part of a that is perpendicular to the rotation *)
Definition perp (w a : V3) : R := sqrt (norm2 a - dot (axis w) a * dot (axis w) a).
Lemma perp_le w a : perp w a <= norm a.
Proof. apply sqrt_le_1_alt. pose proof (Rle_0_sqr (dot (axis w) a)). unfold Rsqr in *. lra. Qed.

(** exactly how far off the result is, above the threshold *)
Theorem C61_error (dt : R) (a w : V3) : eps < norm w ->
  let h := norm w * dt / 2 in
  norm (vsub (integrateVelocityRK4 dt a w vzero) (dv_exact dt a w)) =
  perp w a * (2 / norm w) * Rabs (h * (2 + cos h) / 3 - sin h).
Proof.
  intros H h. rewrite C61_simpson, !C60_rodrigues by exact H. unfold eps in H.
  replace (norm w * (dt / 2)) with h by (unfold h; field). replace (norm w * dt) with (2 * h) by (unfold h; field).
  unfold dv_exact. cbv zeta. replace (norm w * dt) with (2 * h) by (unfold h; field).
  assert (norm2 (axis w) = 1) as Hk by (apply axis_unit; lra). unfold perp.
  set (k := axis w) in *. set (n := norm w) in *. replace dt with (2 * h / n) by (unfold h; field; lra).
  pose proof (sin2_cos2 h) as S. unfold Rsqr in S.
  set (D := h * (2 + cos h) / 3 - sin h).
  assert (vsub (vscale (2 * h / n / 6) (vadd (vadd a (vscale 4 (rodrigues k h a))) (rodrigues k (2 * h) a)))
     (vadd (vadd (vscale (sin (2 * h) / n) a) (vscale ((1 - cos (2 * h)) / n) (cross k a)))
        (vscale ((2 * h / n - sin (2 * h) / n) * dot k a) k))
     = vadd (vscale (2 / n * D * cos h) (vsub a (vscale (dot k a) k))) (vscale (2 / n * D * sin h) (cross k a))) as E.
  { unfold rodrigues. rewrite cos_2a, sin_2a. generalize (cross k a) (dot k a). intros u d. unfold D.
    assert (sin h * sin h = 1 - cos h * cos h) as S' by lra.
    apply V3_eq; unfold vsub, vadd, vscale; gproj; field_simplify_eq; try lra; ring [S']. }
  rewrite E. unfold norm. rewrite perp_norm by exact Hk.
  replace (2 / n * D * cos h * (2 / n * D * cos h) + 2 / n * D * sin h * (2 / n * D * sin h)) with ((2 / n * D) * (2 / n * D)).
  2:{ transitivity (2 / n * D * (2 / n * D) * (sin h * sin h + cos h * cos h)); [rewrite S; ring|ring]. }
  rewrite sqrt_mult_alt by apply Rle_0_sqr. change (2 / n * D * (2 / n * D)) with (Rsqr (2 / n * D)). rewrite sqrt_Rsqr_abs, Rabs_mult.
  rewrite (Rabs_pos_eq (2 / n)). { ring. }
  apply Rmult_le_pos; [lra|]. left. apply Rinv_0_lt_compat. lra.
Qed.
(** hence a fifth order term (the constant 2880 is that of Simpson's rule) *)
Theorem C61_fifth_order (dt : R) (a w : V3) : eps < norm w ->
  exists dv, is_dv dt a w dv /\
  norm (vsub (integrateVelocityRK4 dt a w vzero) dv) <= norm a * norm w ^ 4 * Rabs dt ^ 5 / 2880.
Proof.
  intros H. assert (norm w <> 0) as Hn by (unfold eps in H; lra).
  exists (dv_exact dt a w). split; [apply C61_exact_integral, Hn|]. rewrite C61_error by exact H.
  set (h := norm w * dt / 2). pose proof (simpson_sin h) as S. pose proof (perp_le w a) as Q. pose proof (norm_pos w) as Np. pose proof (norm_pos a) as Na.
  assert (Rabs h = norm w * Rabs dt / 2) as Eh.
  { unfold h, Rdiv. rewrite !Rabs_mult, (Rabs_pos_eq (norm w)), (Rabs_pos_eq (/ 2)) by lra. reflexivity. }
  rewrite Eh in S. pose proof (Rabs_pos (h * (2 + cos h) / 3 - sin h)) as E0.
  assert (0 <= perp w a) as Q0 by apply sqrt_pos.
  assert (0 < / norm w) as Ni by (apply Rinv_0_lt_compat; lra).
  apply Rle_trans with (norm a * (2 / norm w) * ((norm w * Rabs dt / 2) ^ 5 / 180)).
  - apply Rmult_le_compat; auto.
    + apply Rmult_le_pos; [exact Q0|]. unfold Rdiv. lra.
    + apply Rmult_le_compat_r; [unfold Rdiv; lra|exact Q].
  - right. field. exact Hn.
Qed.
(** at or below the threshold the rotation is ignored, which costs at most half |a||w| dt^2 *)
Theorem C61_small_rates (dt : R) (a w : V3) : norm w <> 0 -> norm w <= eps ->
  exists dv, is_dv dt a w dv /\
  norm (vsub (integrateVelocityRK4 dt a w vzero) dv) <= norm a * norm w * (dt * dt) / 2.
Proof.
  intros Hn H. exists (dv_exact dt a w). split; [apply C61_exact_integral, Hn|].
  rewrite C61_simpson, !C60_small by exact H. pose proof (axis_unit w Hn) as Hk. pose proof (perp_le w a) as Q. pose proof (norm_pos w) as Np. pose proof (norm_pos a) as Na.
  unfold dv_exact. cbv zeta. set (k := axis w) in *. set (n := norm w) in *. set (p := n * dt).
  assert (vsub (vscale (dt / 6) (vadd (vadd a (vscale 4 a)) a))
    (vadd (vadd (vscale (sin p / n) a) (vscale ((1 - cos p) / n) (cross k a))) (vscale ((dt - sin p / n) * dot k a) k))
    = vadd (vscale ((p - sin p) / n) (vsub a (vscale (dot k a) k))) (vscale (- (1 - cos p) / n) (cross k a))) as E.
  { unfold p. generalize (cross k a) (dot k a) (sin (n * dt)) (cos (n * dt)). intros u d s c.
    apply V3_eq; unfold vsub, vadd, vscale; gproj; field; exact Hn. }
  rewrite E. unfold norm at 1. rewrite perp_norm by exact Hk.
  assert ((p - sin p) * (p - sin p) + (1 - cos p) * (1 - cos p) <= (p * p / 2) * (p * p / 2)) as B.
  { assert (forall x, 0 <= x -> Rabs ((x - sin x) * (x - sin x) + (1 - cos x) * (1 - cos x)) <= (x * x / 2) * (x * x / 2)) as B0.
    { apply (slope_bound _ _ (fun x => 2 * x * (1 - cos x)) (fun x => x * x * x)).
      - intros y. auto_derive; [exact I|ring].
      - intros y. auto_derive; [exact I|field].
      - rewrite sin_0, cos_0. ring.
      - field.
      - intros y Hy. pose proof (cos_le_sq y Hy) as C. rewrite !Rabs_mult, (Rabs_pos_eq 2), (Rabs_pos_eq y) by lra.
        apply Rle_trans with (2 * y * (y * y / 2)); [apply Rmult_le_compat_l; [lra|exact C]|right; field]. }
    destruct (Rle_dec 0 p) as [Hp|Hp].
    - eapply Rle_trans; [apply Rle_abs|apply B0, Hp].
    - specialize (B0 (- p)). rewrite sin_neg, cos_neg in B0. eapply Rle_trans; [|eapply Rle_trans; [apply B0; lra|right; field]].
      eapply Rle_trans; [|apply Rle_abs]. right. ring. }
  assert (0 < / n) as Ni by (apply Rinv_0_lt_compat; lra).
  assert (norm a * n * (dt * dt) / 2 = sqrt ((p * p / 2 / n) * (p * p / 2 / n) * norm2 a)) as ->.
  { rewrite sqrt_mult_alt by apply Rle_0_sqr. fold (norm a). rewrite sqrt_square.
    - unfold p. field. exact Hn.
    - unfold Rdiv. apply Rmult_le_pos; [|lra]. pose proof (Rle_0_sqr p). unfold Rsqr in *. lra. }
  apply sqrt_le_1_alt.
  pose proof (Rle_0_sqr (dot k a)) as D0. unfold Rsqr in D0. pose proof (norm2_pos a) as A0.
  assert (0 <= norm2 a - dot k a * dot k a) as P0.
  { pose proof (perp_norm k a 1 0 Hk) as Pn. pose proof (norm2_pos (vadd (vscale 1 (vsub a (vscale (dot k a) k))) (vscale 0 (cross k a)))) as P1.
    rewrite Pn in P1. lra. }
  apply Rmult_le_compat; [|exact P0| |lra].
  - pose proof (Rle_0_sqr ((p - sin p) / n)). pose proof (Rle_0_sqr (- (1 - cos p) / n)). unfold Rsqr in *. lra.
  - replace ((p - sin p) / n * ((p - sin p) / n) + - (1 - cos p) / n * (- (1 - cos p) / n)) with (/ n * / n * ((p - sin p) * (p - sin p) + (1 - cos p) * (1 - cos p))) by (field; exact Hn).
    replace (p * p / 2 / n * (p * p / 2 / n)) with (/ n * / n * ((p * p / 2) * (p * p / 2))) by (field; exact Hn).
    apply Rmult_le_compat_l; [|exact B]. apply Rmult_le_pos; lra.
Qed.
Example C61_nonvacuous : eps < norm (mkV 0 0 1) /\ perp (mkV 0 0 1) (mkV 1 0 0) = 1.
Proof.
  assert (norm (mkV 0 0 1) = 1) as N by (apply norm_z; lra). split; [rewrite N; unfold eps; lra|].
  unfold perp, axis. rewrite N. replace (norm2 (mkV 1 0 0) - _) with 1; [apply sqrt_1|]. gunf. field.
Qed.

(** ** C62 *)
Theorem C62_no_rotation (dt : R) (v a p : V3) :
  integratePositionRK4 dt v a vzero p v =
  (vadd (vadd p (vscale dt v)) (vscale (dt * dt / 2) a), vadd v (vscale dt a)).
Proof.
  unfold integratePositionRK4. rewrite !C60_small by (rewrite norm_zero; unfold eps; lra).
  f_equal; apply V3_eq; gunf; field.
Qed.
(** in general the velocity is that of integrateVelocityRK4 (v_i and *v can differ: *v is only
    incremented, v_i only read) *)
Theorem C62_velocity (dt : R) (v_i a w p v : V3) :
  snd (integratePositionRK4 dt v_i a w p v) = integrateVelocityRK4 dt a w v.
Proof. reflexivity. Qed.
(** and the distance moved is at most |dt||v_i| + dt^2 |a| / 2 *)
Theorem C62_no_overshoot (dt : R) (v_i a w p v : V3) :
  norm (vsub (fst (integratePositionRK4 dt v_i a w p v)) p) <= Rabs dt * norm v_i + dt * dt / 2 * norm a.
Proof.
  unfold integratePositionRK4. cbv zeta. cbn [fst]. set (qm := deltaQuaternion (1 / 2 * dt) w). set (qe := deltaQuaternion dt w).
  set (b1 := qrot qm (vadd v_i (vscale (1 / 2 * dt) a))). set (b2 := qrot qm (vadd v_i (vscale (1 / 2 * dt) (qrot qm a)))).
  set (b3 := qrot qe (vadd v_i (vscale dt (qrot qm a)))).
  assert (forall b c, norm (vadd v_i (vscale c b)) <= norm v_i + Rabs c * norm b) as T.
  { intros. rewrite <- norm_scale. apply norm_triangle. }
  assert (Rabs (1 / 2 * dt) = Rabs dt / 2) as Hh by (rewrite Rabs_mult, (Rabs_pos_eq (1 / 2)); lra).
  assert (norm b1 <= norm v_i + Rabs dt / 2 * norm a) as H1 by (unfold b1, qm; rewrite C60_length, <- Hh; apply T).
  assert (norm b2 <= norm v_i + Rabs dt / 2 * norm a) as H2.
  { unfold b2, qm. rewrite C60_length, <- Hh. eapply Rle_trans; [apply T|]. rewrite C60_length. lra. }
  assert (norm b3 <= norm v_i + Rabs dt * norm a) as H3.
  { unfold b3, qe, qm. rewrite C60_length. eapply Rle_trans; [apply T|]. rewrite C60_length. lra. }
  replace (vsub _ p) with (vscale (dt / 6) (vadd (vadd (vadd v_i (vscale 2 b1)) (vscale 2 b2)) b3)) by (generalize b1 b2 b3; intros; apply V3_eq; gunf; field).
  rewrite norm_scale. unfold Rdiv at 1. rewrite Rabs_mult, (Rabs_pos_eq (/ 6)) by lra.
  assert (norm (vadd (vadd (vadd v_i (vscale 2 b1)) (vscale 2 b2)) b3) <= 6 * (norm v_i + Rabs dt / 2 * norm a)) as B.
  { eapply Rle_trans; [apply norm_triangle|]. eapply Rle_trans; [apply Rplus_le_compat_r, norm_triangle|].
    eapply Rle_trans; [apply Rplus_le_compat_r, Rplus_le_compat_r, norm_triangle|]. rewrite !norm_scale, Rabs_pos_eq by lra.
    pose proof (norm_pos a). pose proof (Rabs_pos dt). lra. }
  apply Rle_trans with (Rabs dt * / 6 * (6 * (norm v_i + Rabs dt / 2 * norm a))).
  - apply Rmult_le_compat_l; [|exact B]. apply Rmult_le_pos; [apply Rabs_pos|lra].
  - right. assert (Rabs dt * Rabs dt = dt * dt) as E by (rewrite <- Rabs_mult; apply Rabs_pos_eq; pose proof (Rle_0_sqr dt); unfold Rsqr in *; lra).
    transitivity (Rabs dt * norm v_i + Rabs dt * Rabs dt / 2 * norm a); [field|rewrite E; reflexivity].
Qed.
Example C62_nonvacuous : fst (integratePositionRK4 2 (mkV 1 0 0) (mkV 0 0 3) vzero vzero (mkV 1 0 0)) = mkV 2 0 6.
Proof. rewrite C62_no_rotation. cbn [fst]. apply V3_eq; gunf; field. Qed.
