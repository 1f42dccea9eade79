(** C88: the six_d_rates system Jacobian of gravity with respect to the angular velocity. *)
From Coq Require Import Reals Lra Psatz List Lia Bool Arith.
From Coquelicot Require Import Coquelicot.
From Verif Require Import Outcome ActiveSets Geo Integration Props_Integration Transform Props_Transform Props_Imu SixD Props_SixD Props_SixDJac.
Import ListNotations.
Open Scope R_scope.

(** ** Elementary bounds *)
Lemma norm_cross_sq a b : norm2 (cross a b) = norm2 a * norm2 b - dot a b * dot a b.
Proof. gunf. ring. Qed.
Lemma norm_cross a b : norm (cross a b) <= norm a * norm b.
Proof.
  unfold norm. rewrite <- sqrt_mult by apply norm2_pos. apply sqrt_le_1_alt. rewrite norm_cross_sq. nra.
Qed.
Lemma abs_dot a b : Rabs (dot a b) <= norm a * norm b.
Proof.
  apply Rabs_le. split; [|apply cauchy].
  pose proof (cauchy (vscale (-1) a) b) as C. rewrite norm_scale, Rabs_left in C by lra.
  replace (dot (vscale (-1) a) b) with (- dot a b) in C by (gunf; ring). lra.
Qed.
Lemma even_bound (f g : R -> R) : (forall x, Rabs (f (- x)) = Rabs (f x)) -> (forall x, 0 <= x -> Rabs (f x) <= g x) -> forall x, Rabs (f x) <= g (Rabs x).
Proof.
  intros E H x. destruct (Rle_dec 0 x) as [Hx|Hx].
  - rewrite (Rabs_pos_eq x) by exact Hx. apply H, Hx.
  - rewrite (Rabs_left x), <- E by lra. apply H. lra.
Qed.
Lemma sin_cube x : Rabs (sin x - x) <= Rabs x ^ 3 / 6.
Proof.
  apply (even_bound (fun x => sin x - x) (fun x => x ^ 3 / 6)).
  - intros y. rewrite sin_neg. rewrite <- Rabs_Ropp. f_equal. ring.
  - apply (slope_bound _ _ (fun x => cos x - 1) (fun x => x ^ 2 / 2)).
    + intros y. auto_derive; [exact I|ring].
    + intros y. auto_derive; [exact I|simpl; field].
    + rewrite sin_0. ring.
    + simpl. field.
    + intros y Hy. replace (cos y - 1) with (- (1 - cos y)) by ring. rewrite Rabs_Ropp. simpl. replace (y * (y * 1) / 2) with (y * y / 2) by field. apply cos_le_sq, Hy.
Qed.
Lemma cos_quart x : Rabs (1 - cos x - x * x / 2) <= Rabs x ^ 4 / 24.
Proof.
  apply (even_bound (fun x => 1 - cos x - x * x / 2) (fun x => x ^ 4 / 24)).
  - intros y. rewrite cos_neg. f_equal. field.
  - apply (slope_bound _ _ (fun x => sin x - x) (fun x => x ^ 3 / 6)).
    + intros y. auto_derive; [exact I|field].
    + intros y. auto_derive; [exact I|simpl; field].
    + rewrite cos_0. field.
    + simpl. field.
    + intros y Hy. pose proof (sin_cube y) as S. rewrite (Rabs_pos_eq y) in S by exact Hy. exact S.
Qed.
Lemma sin_cos_cube x : Rabs (x * cos x - sin x) <= Rabs x ^ 3 / 3.
Proof.
  apply (even_bound (fun x => x * cos x - sin x) (fun x => x ^ 3 / 3)).
  - intros y. rewrite sin_neg, cos_neg. rewrite <- Rabs_Ropp. f_equal. ring.
  - apply (slope_bound _ _ (fun x => - (x * sin x)) (fun x => x ^ 2)).
    + intros y. auto_derive; [exact I|ring].
    + intros y. auto_derive; [exact I|simpl; field].
    + rewrite sin_0. ring.
    + simpl. field.
    + intros y Hy. pose proof (sin_le_abs y Hy) as S. rewrite Rabs_Ropp, Rabs_mult, (Rabs_pos_eq y) by exact Hy. simpl. nra.
Qed.
Lemma sin_cos_quart x : Rabs (x * sin x - 2 * (1 - cos x)) <= Rabs x ^ 4 / 12.
Proof.
  apply (even_bound (fun x => x * sin x - 2 * (1 - cos x)) (fun x => x ^ 4 / 12)).
  - intros y. rewrite sin_neg, cos_neg. f_equal. ring.
  - apply (slope_bound _ _ (fun x => x * cos x - sin x) (fun x => x ^ 3 / 3)).
    + intros y. auto_derive; [exact I|ring].
    + intros y. auto_derive; [exact I|simpl; field].
    + rewrite sin_0, cos_0. ring.
    + simpl. field.
    + intros y Hy. pose proof (sin_cos_cube y) as S. rewrite (Rabs_pos_eq y) in S by exact Hy. exact S.
Qed.

(** ** Specification *)
(** the state with its angular velocity changed by s d *)
Definition move_rates (x : vecn) (s : R) (d : V3) : vecn := put_seg x s6_VPHI (vadd (seg x s6_VPHI) (vscale s d)).
(** the block of G for gravity and angular velocity *)
Definition rate_block (m : SixDRates) : M3 := get_block (s6_G m) s6_GX s6_VPHI.
(** the claim: it is the derivative of the predicted gravity *)
Definition C88_claim : Prop := forall (m : SixDRates) (x : vecn) (dt : R) (d : V3), s6_cj m = true -> all_active m -> eps < norm (seg x s6_VPHI) ->
  is_vderive (fun s => seg (s6_g (s6_update m (move_rates x s d) dt)) s6_GX) 0 (mvec (rate_block (s6_update m x dt)) d).

(** ** The derivative *)
(** what it is: n = |w|, theta = n dt *)
Definition rate_derivative (dt : R) (w g d : V3) : V3 :=
  let n := norm w in
  let theta := n * dt in
  vadd (vadd (vscale (sin theta / n) (cross d g))
             (vscale ((1 - cos theta) / (n * n)) (vadd (cross d (cross w g)) (cross w (cross d g)))))
       (vscale (dot w d) (vadd (vscale ((theta * cos theta - sin theta) / (n * n * n)) (cross w g))
                               (vscale ((theta * sin theta - 2 * (1 - cos theta)) / (n * n * n * n)) (cross w (cross w g))))).
Lemma rot_form dt w g : eps < norm w -> qrot (deltaQuaternion dt w) g =
  vadd (vadd g (vscale (sin (norm w * dt) / norm w) (cross w g))) (vscale ((1 - cos (norm w * dt)) / (norm w * norm w)) (cross w (cross w g))).
Proof.
  intros H. rewrite C60_rodrigues by exact H. unfold rodrigues, axis. unfold eps in H. set (n := norm w) in *.
  assert (n * n = norm2 w) as Hn by apply norm_sq.
  assert (cross w (cross w g) = vsub (vscale (dot w g) w) (vscale (n * n) g)) as -> by (rewrite Hn; v3).
  generalize (sin (n * dt)) (cos (n * dt)). intros s c. apply V3_eq; gunf; field; lra.
Qed.
Lemma norm_derive w d : 0 < norm w -> is_derive (fun s => norm (vadd w (vscale s d))) 0 (dot w d / norm w).
Proof.
  intros H. unfold norm at 1. assert (0 < norm2 w) as H2 by (rewrite <- norm_sq; nra).
  apply (is_derive_ext (fun s => sqrt (norm2 w + 2 * s * dot w d + s * s * norm2 d))); [intros s; f_equal; gunf; ring|].
  auto_derive.
  - replace (norm2 w + 2 * 0 * dot w d + 0 * 0 * norm2 d) with (norm2 w) by ring. exact H2.
  - replace (norm2 w + 2 * 0 * dot w d + 0 * 0 * norm2 d) with (norm2 w) by ring. fold (norm w). field. lra.
Qed.
Lemma derive_form (N C E : R -> R) (g dt n' c' e' : R) : is_derive N 0 n' -> is_derive C 0 c' -> is_derive E 0 e' -> 0 < N 0 ->
  is_derive (fun s => g + sin (N s * dt) / N s * C s + (1 - cos (N s * dt)) / (N s * N s) * E s) 0
    (let t := N 0 * dt in n' * ((t * cos t - sin t) / (N 0 * N 0)) * C 0 + sin t / N 0 * c'
     + n' * ((t * sin t - 2 * (1 - cos t)) / (N 0 * N 0 * N 0)) * E 0 + (1 - cos t) / (N 0 * N 0) * e').
Proof.
  intros Hn Hc He Hp. cbv zeta. auto_derive.
  - repeat split; try (eexists; eassumption); nra.
  - assert (Derive (fun x => N x) 0 = n') as -> by (apply is_derive_unique, Hn).
    assert (Derive (fun x => C x) 0 = c') as -> by (apply is_derive_unique, Hc).
    assert (Derive (fun x => E x) 0 = e') as -> by (apply is_derive_unique, He). field. lra.
Qed.
Lemma moved_rates m x s d dt : all_active m ->
  seg (s6_g (s6_update m (move_rates x s d) dt)) s6_GX = qrot (deltaQuaternion dt (vadd (seg x s6_VPHI) (vscale s d))) (seg x s6_GX).
Proof.
  intros Hu. cbn [s6_update s6_g]. unfold s6_GX. rewrite predict_gravity, !Hu by (unfold s6_DIMS; lia). cbn [andb].
  assert (seg (move_rates x s d) 9 = seg x 9) as -> by (unfold seg, move_rates, s6_VPHI; rewrite !put_seg_other by lia; reflexivity).
  unfold move_rates. change 6%nat with s6_VPHI. rewrite seg_put_seg. reflexivity.
Qed.
Lemma vderive_ext_loc f g s l : locally s (fun x => f x = g x) -> is_vderive f s l -> is_vderive g s l.
Proof.
  intros L (H0 & H1 & H2). repeat split; eapply is_derive_ext_loc; try eassumption; (eapply filter_imp; [|exact L]); intros y E; cbn beta; rewrite E; reflexivity.
Qed.
Lemma norm_continuous w d : continuous (fun s => norm (vadd w (vscale s d))) 0.
Proof.
  apply (continuous_ext (fun s => sqrt (norm2 w + 2 * s * dot w d + s * s * norm2 d))); [intros s; unfold norm; f_equal; gunf; ring|].
  apply continuous_comp; [apply (ex_derive_continuous (fun s => norm2 w + 2 * s * dot w d + s * s * norm2 d)); auto_derive; exact I|].
  apply continuity_pt_filterlim, continuity_pt_sqrt. replace (norm2 w + 2 * 0 * dot w d + 0 * 0 * norm2 d) with (norm2 w) by ring. apply norm2_pos.
Qed.
Lemma add_scale0 w d : vadd w (vscale 0 d) = w.
Proof. v3. Qed.
Theorem C88_true_derivative (m : SixDRates) (x : vecn) (dt : R) (d : V3) : all_active m -> eps < norm (seg x s6_VPHI) ->
  is_vderive (fun s => seg (s6_g (s6_update m (move_rates x s d) dt)) s6_GX) 0 (rate_derivative dt (seg x s6_VPHI) (seg x s6_GX) d).
Proof.
  intros Hu Hn. apply (vderive_ext (fun s => qrot (deltaQuaternion dt (vadd (seg x s6_VPHI) (vscale s d))) (seg x s6_GX))); [intros s; symmetry; apply moved_rates, Hu|].
  generalize (seg x s6_GX). revert Hn. generalize (seg x s6_VPHI). intros w Hn g. assert (0 < norm w) as Hp by (unfold eps in Hn; lra).
  set (W := fun s => vadd w (vscale s d)).
  apply (vderive_ext_loc (fun s => vadd (vadd g (vscale (sin (norm (W s) * dt) / norm (W s)) (cross (W s) g))) (vscale ((1 - cos (norm (W s) * dt)) / (norm (W s) * norm (W s))) (cross (W s) (cross (W s) g))))).
  { assert (locally (0 : R) (fun s => eps < norm (W s))) as L.
    { apply (norm_continuous w d (fun n => eps < n)). rewrite add_scale0. apply (open_gt eps), Hn. }
    eapply filter_imp; [|exact L]. intros s Hs. symmetry. apply rot_form, Hs. }
  pose proof (norm_derive w d Hp) as Dn. fold (W) in Dn.
  assert (norm (W 0) = norm w) as E0 by (unfold W; rewrite add_scale0; reflexivity).
  unfold rate_derivative. cbv zeta. unfold is_vderive. refine (conj _ (conj _ _)).
  all: match goal with |- is_derive ?f _ ?l => let f' := eval cbn [vx vy vz vadd vscale] in f in let l' := eval cbn [vx vy vz vadd vscale] in l in change (is_derive f' 0 l') end.
  - evar_last; [apply (derive_form (fun s => norm (W s)) (fun s => vx (cross (W s) g)) (fun s => vx (cross (W s) (cross (W s) g))) (vx g) dt _ (vx (cross d g)) (vx (vadd (cross d (cross w g)) (cross w (cross d g)))) Dn)|].
    + unfold W. gunf. auto_derive; [exact I|ring].
    + unfold W. gunf. auto_derive; [exact I|ring].
    + rewrite E0. exact Hp.
    + cbv zeta. rewrite E0. assert (W 0 = w) as -> by apply add_scale0. gunf. field. lra.
  - evar_last; [apply (derive_form (fun s => norm (W s)) (fun s => vy (cross (W s) g)) (fun s => vy (cross (W s) (cross (W s) g))) (vy g) dt _ (vy (cross d g)) (vy (vadd (cross d (cross w g)) (cross w (cross d g)))) Dn)|].
    + unfold W. gunf. auto_derive; [exact I|ring].
    + unfold W. gunf. auto_derive; [exact I|ring].
    + rewrite E0. exact Hp.
    + cbv zeta. rewrite E0. assert (W 0 = w) as -> by apply add_scale0. gunf. field. lra.
  - evar_last; [apply (derive_form (fun s => norm (W s)) (fun s => vz (cross (W s) g)) (fun s => vz (cross (W s) (cross (W s) g))) (vz g) dt _ (vz (cross d g)) (vz (vadd (cross d (cross w g)) (cross w (cross d g)))) Dn)|].
    + unfold W. gunf. auto_derive; [exact I|ring].
    + unfold W. gunf. auto_derive; [exact I|ring].
    + rewrite E0. exact Hp.
    + cbv zeta. rewrite E0. assert (W 0 = w) as -> by apply add_scale0. gunf. field. lra.
Qed.
(** ** What the code computes *)
Lemma get_other_block m a b B i j : (b + 2 < j \/ j + 2 < b)%nat -> get_block (put_block m a b B) i j = get_block m i j.
Proof.
  intros H. unfold get_block, put_block, mput_row. rewrite !mput_other by lia. reflexivity.
Qed.
Lemma mvec_msub A B v : mvec (msub A B) v = vsub (mvec A v) (mvec B v).
Proof. v3. Qed.
Lemma mvec_mscale k A v : mvec (mscale k A) v = vscale k (mvec A v).
Proof. v3. Qed.
Lemma mvec_outer a b v : mvec (outer a b) v = vscale (dot b v) a.
Proof. v3. Qed.
Lemma mvec_skew a v : mvec (skew a) v = cross a v.
Proof. v3. Qed.
Lemma block_form a b g w d : mvec (madd (mscale (- a) (skew g)) (mscale b (msub (madd (mscale (dot w g) mid) (outer w g)) (outer g w)))) d =
  vadd (vscale a (cross d g)) (vscale b (vsub (vadd (vscale (dot w g) d) (vscale (dot g d) w)) (vscale (dot w d) g))).
Proof.
  rewrite mvec_madd, !mvec_mscale, mvec_msub, mvec_madd, mvec_mscale, mvec_mid, !mvec_outer, mvec_skew. f_equal. v3.
Qed.
Theorem C88_block (m : SixDRates) (x : vecn) (dt : R) (d : V3) : s6_cj m = true -> eps < norm (seg x s6_VPHI) ->
  let w := seg x s6_VPHI in let g := seg x s6_GX in
  mvec (rate_block (s6_update m x dt)) d =
  vadd (vscale (cos (norm w * dt / 2) * dt) (cross d g))
       (vscale (1 / 2 * (dt * dt)) (vsub (vadd (vscale (dot w g) d) (vscale (dot g d) w)) (vscale (dot w d) g))).
Proof.
  intros Hc Hn. cbv zeta. unfold rate_block, s6_update. cbn [s6_G]. rewrite Hc. unfold s6_jacobian. cbv zeta.
  rewrite get_other_block by (unfold s6_GX, s6_VPHI; lia). rewrite get_put_block. rewrite dq_big by exact Hn. cbv zeta. cbn [qw].
  replace (1 / 2 * dt * norm (seg x s6_VPHI)) with (norm (seg x s6_VPHI) * dt / 2) by field.
  rewrite Ropp_mult_distr_l_reverse. apply block_form.
Qed.
(** with twice the last term it is right up to third order terms: the code lacks
    - 1/2 dt^2 (w . d) g *)
Theorem C88_error_partial (m : SixDRates) (x : vecn) (dt : R) (d : V3) : s6_cj m = true -> eps < norm (seg x s6_VPHI) ->
  let w := seg x s6_VPHI in let g := seg x s6_GX in let n := norm w in
  norm (vsub (rate_derivative dt w g d) (vsub (mvec (rate_block (s6_update m x dt)) d) (vscale (1 / 2 * (dt * dt) * dot w d) g)))
  <= (3 / 8 * Rabs dt ^ 3 * n ^ 2 + 1 / 6 * Rabs dt ^ 4 * n ^ 3) * (norm g * norm d).
Proof.
  intros Hc Hn. cbv zeta. rewrite C88_block by assumption. cbv zeta. revert Hn. generalize (seg x s6_VPHI) (seg x s6_GX). intros w g Hn.
  assert (0 < norm w) as Hp by (unfold eps in Hn; lra). unfold rate_derivative. cbv zeta. set (n := norm w) in *. set (t := n * dt).
  set (e1 := sin t / n - cos (t / 2) * dt). set (e2 := (1 - cos t) / (n * n) - 1 / 2 * (dt * dt)).
  set (e3 := (t * cos t - sin t) / (n * n * n)). set (e4 := (t * sin t - 2 * (1 - cos t)) / (n * n * n * n)).
  set (u2 := vadd (cross d (cross w g)) (cross w (cross d g))).
  match goal with |- norm ?v <= _ => replace v with
    (vadd (vadd (vscale e1 (cross d g)) (vscale e2 u2)) (vscale (dot w d) (vadd (vscale e3 (cross w g)) (vscale e4 (cross w (cross w g)))))) end.
  2: { assert (u2 = vsub (vadd (vscale (dot w g) d) (vscale (dot g d) w)) (vscale (2 * dot w d) g)) as Eu by (unfold u2; v3).
       unfold e1, e2. fold n t u2. rewrite Eu. fold e3 e4. generalize (sin t / n) (cos (t / 2) * dt) ((1 - cos t) / (n * n)) e3 e4. intros. v3. }
  assert (Rabs t = n * Rabs dt) as Et by (unfold t; rewrite Rabs_mult, (Rabs_pos_eq n) by lra; reflexivity).
  assert (Rabs e1 <= Rabs dt ^ 3 * n ^ 2 / 24) as B1.
  { assert (e1 = cos (t / 2) * (2 / n) * (sin (t / 2) - t / 2)) as ->.
    { unfold e1. replace (sin t) with (2 * sin (t / 2) * cos (t / 2)) by (rewrite <- sin_2a; f_equal; field). unfold t. field. lra. }
    rewrite !Rabs_mult. pose proof (sin_cube (t / 2)) as S. assert (Rabs (cos (t / 2)) <= 1) as C by (apply Rabs_le, COS_bound).
    rewrite (Rabs_pos_eq (2 / n)) by (apply Rlt_le, Rdiv_lt_0_compat; lra).
    assert (0 < 2 / n) as P by (apply Rdiv_lt_0_compat; lra).
    apply Rle_trans with (1 * (2 / n) * (Rabs (t / 2) ^ 3 / 6)).
    - apply Rmult_le_compat; [apply Rmult_le_pos; [apply Rabs_pos|lra]|apply Rabs_pos|apply Rmult_le_compat_r; [lra|exact C]|exact S].
    - replace (Rabs (t / 2)) with (n * Rabs dt / 2) by (unfold Rdiv; rewrite Rabs_mult, Et, (Rabs_pos_eq (/ 2)) by lra; reflexivity). right. simpl. field. lra. }
  assert (Rabs e2 <= Rabs dt ^ 4 * n ^ 2 / 24) as B2.
  { assert (e2 = (1 - cos t - t * t / 2) / (n * n)) as -> by (unfold e2, t; field; lra). pose proof (cos_quart t) as S. rewrite Et in S.
    unfold Rdiv at 1. rewrite Rabs_mult, (Rabs_pos_eq (/ (n * n))) by (apply Rlt_le, Rinv_0_lt_compat; nra).
    eapply Rle_trans; [apply Rmult_le_compat_r; [apply Rlt_le, Rinv_0_lt_compat; nra|exact S]|]. right. simpl. field. lra. }
  assert (Rabs e3 <= Rabs dt ^ 3 / 3) as B3.
  { pose proof (sin_cos_cube t) as S. rewrite Et in S. unfold e3, Rdiv at 1. assert (0 < n * n * n) by (apply Rmult_lt_0_compat; nra).
    rewrite Rabs_mult, (Rabs_pos_eq (/ (n * n * n))) by (apply Rlt_le, Rinv_0_lt_compat; assumption).
    eapply Rle_trans; [apply Rmult_le_compat_r; [apply Rlt_le, Rinv_0_lt_compat; assumption|exact S]|]. right. simpl. field. lra. }
  assert (Rabs e4 <= Rabs dt ^ 4 / 12) as B4.
  { pose proof (sin_cos_quart t) as S. rewrite Et in S. unfold e4, Rdiv at 1. assert (0 < n * n * n * n) by (apply Rmult_lt_0_compat; [apply Rmult_lt_0_compat; nra|lra]).
    rewrite Rabs_mult, (Rabs_pos_eq (/ (n * n * n * n))) by (apply Rlt_le, Rinv_0_lt_compat; assumption).
    eapply Rle_trans; [apply Rmult_le_compat_r; [apply Rlt_le, Rinv_0_lt_compat; assumption|exact S]|]. right. simpl. field. lra. }
  pose proof (norm_pos g) as Pg. pose proof (norm_pos d) as Pd. pose proof (Rabs_pos dt) as Pt.
  assert (norm (cross d g) <= norm d * norm g) as N1 by apply norm_cross.
  assert (norm u2 <= 2 * (n * norm d * norm g)) as N2.
  { unfold u2. eapply Rle_trans; [apply norm_triangle|]. pose proof (norm_cross d (cross w g)) as Q1. pose proof (norm_cross w (cross d g)) as Q2. pose proof (norm_cross w g) as Q3. pose proof (norm_cross d g) as Q4. change (norm w) with n in Q1, Q2, Q3, Q4. clear - Q1 Q2 Q3 Q4 Pg Pd Hp. nra. }
  assert (norm (cross w g) <= n * norm g) as N3 by apply norm_cross.
  assert (norm (cross w (cross w g)) <= n * n * norm g) as N4 by (pose proof (norm_cross w (cross w g)) as Q; fold n in Q; nra).
  assert (Rabs (dot w d) <= n * norm d) as N5 by apply abs_dot.
  eapply Rle_trans; [apply norm_triangle|]. eapply Rle_trans; [apply Rplus_le_compat_r, norm_triangle|]. rewrite !norm_scale.
  assert (norm (vadd (vscale e3 (cross w g)) (vscale e4 (cross w (cross w g)))) <= (Rabs dt ^ 3 / 3 * n + Rabs dt ^ 4 / 12 * (n * n)) * norm g) as N6.
  { eapply Rle_trans; [apply norm_triangle|]. rewrite !norm_scale.
    assert (Rabs e3 * norm (cross w g) <= Rabs dt ^ 3 / 3 * (n * norm g)) by (apply Rmult_le_compat; auto using Rabs_pos, norm_pos).
    assert (Rabs e4 * norm (cross w (cross w g)) <= Rabs dt ^ 4 / 12 * (n * n * norm g)) by (apply Rmult_le_compat; auto using Rabs_pos, norm_pos). lra. }
  assert (Rabs e1 * norm (cross d g) <= Rabs dt ^ 3 * n ^ 2 / 24 * (norm d * norm g)) as M1 by (apply Rmult_le_compat; auto using Rabs_pos, norm_pos).
  assert (Rabs e2 * norm u2 <= Rabs dt ^ 4 * n ^ 2 / 24 * (2 * (n * norm d * norm g))) as M2 by (apply Rmult_le_compat; auto using Rabs_pos, norm_pos).
  assert (Rabs (dot w d) * norm (vadd (vscale e3 (cross w g)) (vscale e4 (cross w (cross w g)))) <= n * norm d * ((Rabs dt ^ 3 / 3 * n + Rabs dt ^ 4 / 12 * (n * n)) * norm g)) as M3
    by (apply Rmult_le_compat; auto using Rabs_pos, norm_pos).
  eapply Rle_trans; [apply Rplus_le_compat; [apply Rplus_le_compat; [exact M1|exact M2]|exact M3]|]. right. simpl. field.
Qed.
(** below the threshold the predicted gravity does not depend on the rates at all, while the block is
    almost -dt skew(g) *)
Theorem C88_small_partial (m : SixDRates) (x : vecn) (dt : R) (d : V3) : s6_cj m = true -> all_active m -> norm (seg x s6_VPHI) < eps ->
  is_vderive (fun s => seg (s6_g (s6_update m (move_rates x s d) dt)) s6_GX) 0 vzero
  /\ let w := seg x s6_VPHI in let g := seg x s6_GX in
     mvec (rate_block (s6_update m x dt)) d =
     vadd (vscale dt (cross d g)) (vscale (1 / 2 * (dt * dt)) (vsub (vadd (vscale (dot w g) d) (vscale (dot g d) w)) (vscale (dot w d) g))).
Proof.
  intros Hc Hu Hn. split.
  - apply (vderive_ext_loc (fun _ => seg x s6_GX)).
    + assert (locally (0 : R) (fun s => norm (vadd (seg x s6_VPHI) (vscale s d)) < eps)) as L.
      { apply (norm_continuous (seg x s6_VPHI) d (fun n => n < eps)). rewrite add_scale0. apply (open_lt eps), Hn. }
      eapply filter_imp; [|exact L]. intros s Hs. rewrite moved_rates by exact Hu. symmetry. apply C60_small. apply Rlt_le, Hs.
    + unfold is_vderive, vzero. cbn [vx vy vz]. refine (conj _ (conj _ _)); apply (is_derive_const (K := R_AbsRing) (V := R_NormedModule)).
  - cbv zeta. unfold rate_block, s6_update. cbn [s6_G]. rewrite Hc. unfold s6_jacobian. cbv zeta.
    rewrite get_other_block by (unfold s6_GX, s6_VPHI; lia). rewrite get_put_block. rewrite dq_small by lra. cbn [qw qid].
    replace (- (1) * dt) with (- dt) by ring. apply block_form.
Qed.
(** a full turn per step about z, gravity along x, derivative in the direction of the rates *)
Theorem C88_refuted : ~ C88_claim.
Proof.
  intros H. set (x := fun i : nat => if Nat.eqb i 8 then 2 * PI else if Nat.eqb i 9 then g_std else 0).
  set (m := s6_new true true). set (d := mkV 0 0 1).
  assert (seg x s6_VPHI = mkV 0 0 (2 * PI)) as Ew by reflexivity. assert (seg x s6_GX = mkV g_std 0 0) as Eg by reflexivity.
  pose proof PI_RGT_0. pose proof PI2_1. assert (norm (mkV 0 0 (2 * PI)) = 2 * PI) as N by (apply norm_z; lra).
  assert (eps < norm (seg x s6_VPHI)) as Hn by (rewrite Ew, N; unfold eps; lra).
  assert (all_active m) as Hu by (intros i Hi; apply new_usage, Hi).
  pose proof (C67_unique _ _ _ _ (H m x 1 d eq_refl Hu Hn) (C88_true_derivative m x 1 d Hu Hn)) as U.
  rewrite C88_block in U by (auto; reflexivity). cbv zeta in U. rewrite Ew, Eg in U. unfold rate_derivative in U. cbv zeta in U. rewrite N in U.
  rewrite !Rmult_1_r, sin_2PI, cos_2PI in U. apply (f_equal vx) in U. revert U. unfold d, g_std. gunf. intros U.
  match type of U with ?a = ?b => replace a with (- PI * (98062 / 10000)) in U by field; replace b with 0 in U by (field; lra) end. lra.
Qed.
Example C88_nonvacuous : exists m x, s6_cj m = true /\ all_active m /\ eps < norm (seg x s6_VPHI) /\ norm (seg x s6_GX) = g_std.
Proof.
  exists (s6_new true true), (fun i => if Nat.eqb i 8 then 1 else if Nat.eqb i 11 then g_std else 0). repeat split.
  - intros i Hi. apply new_usage, Hi.
  - change (eps < norm (mkV 0 0 1)). rewrite norm_z by lra. unfold eps. lra.
  - change (norm (mkV 0 0 g_std) = g_std). apply norm_z. unfold g_std. lra.
Qed.
