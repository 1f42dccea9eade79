(** C90: angleDifference in double arithmetic. *)
From Coq Require Import ZArith Reals Lra Lia Bool.
From Flocq Require Import Core IEEE754.BinarySingleNaN Sterbenz Mult_error.
From Verif Require Import Outcome FB_Model FloatTime Angles AngleFloat AngleDiff.
Open Scope R_scope.

(** ** Specification *)
(** equal up to whole turns of 2 M_PI, exactly *)
Definition same_direction64 (x y : R) : Prop := exists k : Z, x = y - IZR k * (2 * vpi).
(** the difference of the arguments does not overflow *)
Definition no_overflow (a b : f64) : Prop := Rabs (rnd64 (val a - val b)) < bpow radix2 1024.

(** ** Lemmas *)
Lemma sub_finite a b : finite a = true -> finite b = true -> no_overflow a b -> finite (fsub64 a b) = true /\ val (fsub64 a b) = rnd64 (val a - val b).
Proof.
  intros Fa Fb H. destruct (fsub_cases a b Fa Fb) as [C|(_ & _ & C)]; [exact C|]. unfold no_overflow in H. lra.
Qed.
Lemma v2pi_pos : 0 < val two_m_pi.
Proof. destruct v2pi as [-> _]. pose proof vpi_bounds. lra. Qed.
(** remainder modulo 2 M_PI *)
Lemma fmod_turn x : finite x = true -> let r := fmod64 x two_m_pi in
  finite r = true /\ same_direction64 (val r) (val x) /\ Rabs (val r) < 2 * vpi /\ 0 <= val r * val x.
Proof.
  intros Fx. cbv zeta. destruct v2pi as [E2 F2]. pose proof v2pi_pos as P.
  destruct (fmod_finite x two_m_pi Fx F2) as [Fr Vr]; [lra|]. split; [exact Fr|]. rewrite Vr, E2 in *. clear Vr Fr Fx.
  set (q := val x / (2 * vpi)). assert (val x = q * (2 * vpi)) as Ex by (unfold q; field; lra). rewrite Ex. clearbody q. clear Ex.
  split; [exists (Ztrunc q); ring|].
  replace (q * (2 * vpi) - 2 * vpi * IZR (Ztrunc q)) with ((q - IZR (Ztrunc q)) * (2 * vpi)) by ring.
  destruct (Rle_lt_dec 0 q) as [Hq|Hq].
  - rewrite (Ztrunc_floor q Hq). pose proof (Zfloor_lb q). pose proof (Zfloor_ub q). split.
    + rewrite Rabs_pos_eq by nra. nra.
    + apply Rmult_le_pos; nra.
  - rewrite (Ztrunc_ceil q) by lra. pose proof (Zceil_ub q). pose proof (Zceil_lb q). split.
    + rewrite Rabs_left1 by nra. nra.
    + nra.
Qed.
Lemma trunc_half d : Rabs d < 2 * vpi -> exists k : Z, Ztrunc (2 * d / (2 * vpi)) = k /\
  ((k = 0%Z /\ Rabs d < vpi) \/ (k = 1%Z /\ vpi <= d) \/ (k = (-1)%Z /\ d <= - vpi)).
Proof.
  intros H. pose proof vpi_bounds as B. assert (0 < vpi) as P by lra. apply Rabs_def2 in H.
  replace (2 * d / (2 * vpi)) with (d / vpi) by (field; lra). set (q := d / vpi). assert (d = q * vpi) as E by (unfold q; field; lra). clearbody q. subst d.
  assert (-2 < q < 2) as Q by (split; apply (Rmult_lt_reg_r vpi); lra). eexists. split; [reflexivity|].
  destruct (Rle_lt_dec 1 q) as [H1|H1]; [|destruct (Rle_lt_dec q (-1)) as [H2|H2]].
  - right. left. split; [|nra]. rewrite Ztrunc_floor by lra. apply Zfloor_imp. simpl. lra.
  - right. right. split; [|nra]. rewrite Ztrunc_ceil by lra. apply Zceil_imp. simpl. lra.
  - left. split; [|apply Rabs_def1; nra]. destruct (Rle_lt_dec 0 q) as [H3|H3].
    + rewrite Ztrunc_floor by lra. apply Zfloor_imp. simpl. lra.
    + rewrite Ztrunc_ceil by lra. apply Zceil_imp. simpl. lra.
Qed.
Lemma double_exact d : finite d = true -> Rabs (val d) < 2 * vpi -> finite (Bmult mode_NE f_two d) = true /\ val (Bmult mode_NE f_two d) = 2 * val d.
Proof.
  intros Fd Hd. assert (val f_two = 2) as H2. { unfold f_two, B2R, F2R. cbn [Fnum Fexp]. rewrite bp51. simpl cond_Zopp. lra. }
  assert (fmt64 (2 * val d)) as Fm.
  { replace (2 * val d) with (val d * bpow radix2 1) by (change (bpow radix2 1) with 2; ring).
    apply (mult_bpow_pos_exact_FLT radix2 (-1074) 53); [apply fmt_val|lia]. }
  pose proof (Bmult_correct 53 1024 prec64_gt_0 prec64_lt mode_NE f_two d) as C. simpl round_mode in C. rewrite H2, (rnd_id _ Fm) in C.
  pose proof vpi_bounds as B. rewrite Rlt_bool_true in C.
  - destruct C as (V & F & _). split; [|exact V]. etransitivity; [exact F|]. rewrite Fd. reflexivity.
  - rewrite Rabs_mult, (Rabs_pos_eq 2) by lra. apply Rlt_trans with (bpow radix2 4); [change (bpow radix2 4) with 16; lra|apply bpow_lt; lia].
Qed.
(** the value of the last line, for the remainder d *)
Definition wrap_half (d : R) : R := if Rle_dec vpi d then d - 2 * vpi else if Rle_dec d (- vpi) then d + 2 * vpi else d.
Lemma last_line d : finite d = true -> Rabs (val d) < 2 * vpi ->
  let r := fsub64 (fmod64 (Bmult mode_NE f_two d) two_m_pi) d in finite r = true /\ val r = wrap_half (val d).
Proof.
  intros Fd Hd. cbv zeta. destruct (double_exact d Fd Hd) as [F2 V2]. destruct v2pi as [E2 Fp]. pose proof v2pi_pos as P. pose proof vpi_bounds as B.
  destruct (fmod_finite _ two_m_pi F2 Fp) as [Ff Vf]; [lra|]. rewrite V2, E2 in Vf.
  destruct (trunc_half (val d) Hd) as (k & Ek & Hk). rewrite Ek in Vf. clear Ek.
  assert (val (fmod64 (Bmult mode_NE f_two d) two_m_pi) - val d = wrap_half (val d)) as Ed.
  { rewrite Vf. unfold wrap_half. destruct Hk as [[-> H]|[[-> H]|[-> H]]].
    - apply Rabs_def2 in H. destruct (Rle_dec vpi (val d)); [lra|]. destruct (Rle_dec (val d) (- vpi)); [lra|]. simpl. ring.
    - destruct (Rle_dec vpi (val d)); [|lra]. simpl. ring.
    - destruct (Rle_dec vpi (val d)); [lra|]. destruct (Rle_dec (val d) (- vpi)); [|lra]. simpl. ring. }
  apply Rabs_def2 in Hd. pose proof valid64 as Vv.
  assert (fmt64 (2 * vpi)) as F2pi by (rewrite <- E2; apply fmt_val).
  assert (fmt64 (wrap_half (val d))) as Fw.
  { unfold wrap_half. destruct (Rle_dec vpi (val d)); [|destruct (Rle_dec (val d) (- vpi))].
    - apply sterbenz; auto; [apply (fexp_monotone 53 1024)|apply fmt_val|lra].
    - replace (val d + 2 * vpi) with (2 * vpi - - val d) by ring. apply sterbenz; auto; [apply (fexp_monotone 53 1024)|apply generic_format_opp, fmt_val|lra].
    - apply fmt_val. }
  destruct (sub_finite _ d Ff Fd) as [Fr Vr].
  - unfold no_overflow. rewrite Ed, (rnd_id _ Fw). apply Rlt_trans with (bpow radix2 4); [|apply bpow_lt; lia]. change (bpow radix2 4) with 16.
    unfold wrap_half. apply Rabs_def1; destruct (Rle_dec vpi (val d)); try lra; destruct (Rle_dec (val d) (- vpi)); lra.
  - split; [exact Fr|]. rewrite Vr, Ed. apply rnd_id, Fw.
Qed.
Lemma wrap_range d : Rabs d < 2 * vpi -> - vpi <= wrap_half d <= vpi.
Proof.
  intros H. apply Rabs_def2 in H. unfold wrap_half. destruct (Rle_dec vpi d); [lra|]. destruct (Rle_dec d (- vpi)); lra.
Qed.
Lemma wrap_dir d : same_direction64 (wrap_half d) d.
Proof.
  unfold wrap_half. destruct (Rle_dec vpi d); [exists 1%Z; simpl; ring|]. destruct (Rle_dec d (- vpi)); [exists (-1)%Z; simpl; ring|exists 0%Z; simpl; ring].
Qed.
Lemma wrap_odd d : wrap_half (- d) = - wrap_half d.
Proof.
  pose proof vpi_bounds. unfold wrap_half. destruct (Rle_dec vpi (- d)), (Rle_dec d (- vpi)), (Rle_dec vpi d), (Rle_dec (- d) (- vpi)); lra.
Qed.
Lemma dir_trans x y z : same_direction64 x y -> same_direction64 y z -> same_direction64 x z.
Proof. intros [k ->] [l ->]. exists (k + l)%Z. rewrite plus_IZR. ring. Qed.

(** ** C90 *)
(** finite arguments: the result is finite, in [-M_PI, M_PI], and after the rounding of the first
    subtraction nothing is lost: it is exactly the rounded difference modulo 2 M_PI *)
Theorem C90_range (a b : f64) : finite a = true -> finite b = true -> no_overflow a b ->
  let r := angleDifference64 a b in
  finite r = true /\ - vpi <= val r <= vpi /\ same_direction64 (val r) (rnd64 (val a - val b)).
Proof.
  intros Fa Fb Ho. cbv zeta. unfold angleDifference64. destruct (sub_finite a b Fa Fb Ho) as [Fd Vd].
  destruct (fmod_turn _ Fd) as (Fm & Dm & Rm & _). destruct (last_line _ Fm Rm) as [Fr Vr]. split; [exact Fr|]. rewrite Vr.
  split; [apply wrap_range, Rm|]. eapply dir_trans; [apply wrap_dir|]. rewrite <- Vd. exact Dm.
Qed.
(** it is the shortest such difference *)
Theorem C90_shortest (a b : f64) : finite a = true -> finite b = true -> no_overflow a b ->
  forall d, same_direction64 d (rnd64 (val a - val b)) -> Rabs (val (angleDifference64 a b)) <= Rabs d.
Proof.
  intros Fa Fb Ho d [k Hk]. destruct (C90_range a b Fa Fb Ho) as (_ & Hr & [l Hl]). set (r := val (angleDifference64 a b)) in *.
  pose proof vpi_bounds. assert (d = r + IZR (l - k) * (2 * vpi)) as -> by (rewrite minus_IZR; lra).
  destruct (Z.eq_dec (l - k) 0) as [->|Hn]; [simpl; rewrite Rmult_0_l, Rplus_0_r; lra|].
  assert (Rabs r <= vpi) as R1 by (apply Rabs_le; lra). set (j := (l - k)%Z) in *.
  assert (1 <= j \/ j <= -1)%Z as [Hj|Hj] by lia; apply IZR_le in Hj; simpl in Hj.
  - apply Rle_trans with vpi; [exact R1|]. rewrite Rabs_pos_eq; nra.
  - apply Rle_trans with vpi; [exact R1|]. rewrite Rabs_left1; nra.
Qed.
(** swapping the arguments changes the sign and nothing else *)
Theorem C90_antisymmetric (a b : f64) : finite a = true -> finite b = true -> no_overflow a b ->
  val (angleDifference64 b a) = - val (angleDifference64 a b).
Proof.
  intros Fa Fb Ho. assert (rnd64 (val b - val a) = - rnd64 (val a - val b)) as En by (rewrite <- rnd_neg; f_equal; ring).
  assert (no_overflow b a) as Ho' by (unfold no_overflow; rewrite En, Rabs_Ropp; exact Ho).
  unfold angleDifference64. destruct (sub_finite a b Fa Fb Ho) as [Fd Vd]. destruct (sub_finite b a Fb Fa Ho') as [Fd' Vd'].
  rewrite En, <- Vd in Vd'. destruct v2pi as [E2 Fp]. pose proof v2pi_pos as P.
  destruct (fmod_finite _ two_m_pi Fd Fp) as [_ M]; [lra|]. destruct (fmod_finite _ two_m_pi Fd' Fp) as [_ M']; [lra|].
  destruct (fmod_turn _ Fd) as (Fm & _ & Rm & _). destruct (fmod_turn _ Fd') as (Fm' & _ & Rm' & _).
  destruct (last_line _ Fm Rm) as [_ ->]. destruct (last_line _ Fm' Rm') as [_ ->]. rewrite <- wrap_odd. f_equal. rewrite M, M', Vd'.
  replace (- val (fsub64 a b) / val two_m_pi) with (- (val (fsub64 a b) / val two_m_pi)) by (field; lra). rewrite Ztrunc_opp, opp_IZR. ring.
Qed.
(** for angles in [-M_PI, M_PI] the result is within 2^-51 of the exact difference modulo 2 M_PI *)
Theorem C90_accuracy (a b : f64) : finite a = true -> finite b = true -> Rabs (val a) <= vpi -> Rabs (val b) <= vpi ->
  exists k : Z, Rabs (val (angleDifference64 a b) - (val a - val b - IZR k * (2 * vpi))) <= bpow radix2 (-51).
Proof.
  intros Fa Fb Ha Hb. pose proof vpi_bounds as B. assert (Rabs (val a - val b) < 8) as H8.
  { eapply Rle_lt_trans; [apply Rabs_triang|]. rewrite Rabs_Ropp. lra. }
  assert (no_overflow a b) as Ho.
  { unfold no_overflow. eapply Rle_lt_trans; [apply (rnd_abs_le _ 3); [lia|change (bpow radix2 3) with 8; lra]|apply bpow_lt; lia]. }
  destruct (C90_range a b Fa Fb Ho) as (_ & _ & [k Hk]). exists k. rewrite Hk.
  replace (rnd64 (val a - val b) - IZR k * (2 * vpi) - (val a - val b - IZR k * (2 * vpi))) with (rnd64 (val a - val b) - (val a - val b)) by ring.
  pose proof valid64 as Vv. eapply Rle_trans; [apply error_le_half_ulp; exact Vv|].
  assert (ulp radix2 fexp64 (val a - val b) <= bpow radix2 (-50)) as Hu.
  { replace (bpow radix2 (-50)) with (ulp radix2 fexp64 (bpow radix2 2)) by (rewrite ulp_bpow; reflexivity).
    destruct (Req_dec (val a - val b) 0) as [->|H0].
    - apply ulp_le; [apply Vv|apply (fexp_monotone 53 1024)|]. rewrite Rabs_R0. apply Rabs_pos.
    - rewrite ulp_neq_0 by exact H0. rewrite ulp_bpow. apply bpow_le. unfold cexp. apply (fexp_monotone 53 1024). apply mag_le_bpow; [exact H0|].
      change (bpow radix2 (2 + 1)) with 8. exact H8. }
  change (bpow radix2 (-50)) with (bpow radix2 (1 + -51)) in Hu. rewrite bpow_plus in Hu. change (bpow radix2 1) with 2 in Hu. lra.
Qed.
(** no finite result otherwise: overflow, infinities and NaN give NaN *)
Theorem C90_otherwise (a b : f64) : ~ (finite a = true /\ finite b = true /\ no_overflow a b) -> angleDifference64 a b = B754_nan.
Proof.
  intros H. assert (forall d : f64, finite d = false -> fsub64 (fmod64 (Bmult mode_NE f_two (fmod64 d two_m_pi)) two_m_pi) (fmod64 d two_m_pi) = B754_nan) as K.
  { intros [| | |]; intros; try discriminate; reflexivity. }
  unfold angleDifference64. apply K. destruct (finite a) eqn:Fa; [destruct (finite b) eqn:Fb|].
  - destruct (fsub_cases a b Fa Fb) as [[Ff V]|(-> & _)]; [|reflexivity]. exfalso. apply H. split; [reflexivity|]. split; [reflexivity|].
    unfold no_overflow. rewrite <- V. apply abs_B2R_lt_emax.
  - destruct a as [| | |]; try discriminate Fa; destruct b as [| | |]; try discriminate Fb; reflexivity.
  - destruct a as [|[]| |]; try discriminate Fa; destruct b as [|[]| |]; reflexivity.
Qed.
Example C90_nonvacuous : exists a b, finite a = true /\ finite b = true /\ no_overflow a b /\ val a = 3 /\ val b = -3
  /\ val (angleDifference64 a b) = 6 - 2 * vpi.
Proof.
  set (a := @B754_finite 53 1024 false 6755399441055744 (-51) eq_refl). set (b := Bopp a).
  assert (val a = 3) as Va. { unfold a, B2R, F2R. cbn [Fnum Fexp]. rewrite bp51. simpl cond_Zopp. lra. }
  assert (val b = -3) as Vb. { unfold b. rewrite B2R_Bopp, Va. reflexivity. }
  assert (fmt64 6) as F6. { replace 6 with (IZR 6 * bpow radix2 (-0)) by (simpl; ring). apply grid_fmt; lia. }
  assert (no_overflow a b) as Ho.
  { unfold no_overflow. rewrite Va, Vb. replace (3 - -3) with 6 by ring. rewrite (rnd_id _ F6), Rabs_pos_eq by lra.
    apply Rlt_trans with (bpow radix2 4); [change (bpow radix2 4) with 16; lra|apply bpow_lt; lia]. }
  assert (finite a = true) as Fa by reflexivity. assert (finite b = true) as Fb by reflexivity.
  exists a, b. refine (conj Fa (conj Fb (conj Ho (conj Va (conj Vb _))))).
  destruct (C90_range a b Fa Fb Ho) as (_ & Hr & [k Hk]). rewrite Va, Vb in Hk. replace (3 - -3) with 6 in Hk by ring. rewrite (rnd_id _ F6) in Hk.
  pose proof vpi_bounds. assert (0 < IZR k < 2) as [K1 K2] by (split; apply (Rmult_lt_reg_r (2 * vpi)); lra).
  apply lt_IZR in K1. apply lt_IZR in K2. assert (k = 1%Z) as -> by lia. lra.
Qed.
