(** constrainAngle on IEEE-754 doubles (Flocq binary64, round to nearest even):
    include/state_estimation/utilities/angle_utilities.h:15-24. *)
From Coq Require Import ZArith Reals Lra Lia Bool.
From Flocq Require Import Core IEEE754.BinarySingleNaN Sterbenz.
From Verif Require Import Outcome FB_Model FloatTime Angles.

(** M_PI of <math.h>, 0x1.921fb54442d18p+1, and 2 * M_PI *)
Definition m_pi : f64 := @B754_finite 53 1024 false 7074237752028440 (-51) eq_refl.
Definition f_two : f64 := @B754_finite 53 1024 false 4503599627370496 (-51) eq_refl.
Definition two_m_pi : f64 := Bmult mode_NE f_two m_pi.
(** :15-24, constrainAngle(double): the call returns b *)
Definition constrainAngle64 (a b : f64) : Prop :=
  exists c, while_ends (fun x => Bltb m_pi x) (fun x => fsub64 x two_m_pi) a c
         /\ while_ends (fun x => Bltb x (Bopp m_pi)) (fun x => fadd64 x two_m_pi) c b.

Open Scope R_scope.
Notation vpi := (val m_pi).
Definition four_m_pi_half : f64 := @B754_finite 53 1024 false 7074237752028440 (-50) eq_refl.
Lemma bp51 : bpow radix2 (-51) = / IZR 2251799813685248.
Proof. reflexivity. Qed.
Lemma bp50 : bpow radix2 (-50) = / IZR 1125899906842624.
Proof. reflexivity. Qed.
Lemma vpi_val : vpi = IZR 7074237752028440 / IZR 2251799813685248.
Proof. unfold m_pi, B2R, F2R. cbn [Fnum Fexp]. rewrite bp51. simpl cond_Zopp. reflexivity. Qed.
Lemma vpi_bounds : 3.141592 < vpi < 3.141593.
Proof. rewrite vpi_val. lra. Qed.
Lemma v2pi : val two_m_pi = 2 * vpi /\ finite two_m_pi = true.
Proof.
  assert (val f_two = 2) as H2. { unfold f_two, B2R, F2R. cbn [Fnum Fexp]. rewrite bp51. simpl cond_Zopp. lra. }
  assert (fmt64 (2 * vpi)) as Hf.
  { replace (2 * vpi) with (val four_m_pi_half); [apply fmt_val|]. rewrite vpi_val.
    unfold four_m_pi_half, B2R, F2R. cbn [Fnum Fexp]. rewrite bp50. simpl cond_Zopp. lra. }
  pose proof (Bmult_correct _ _ _ _ mode_NE f_two m_pi) as Hc. simpl round_mode in Hc. rewrite H2, (rnd_id _ Hf) in Hc.
  rewrite Rlt_bool_true in Hc.
  - destruct Hc as (E & F & _). split; [exact E|exact F].
  - pose proof vpi_bounds. rewrite Rabs_pos_eq by lra. apply Rlt_trans with (bpow radix2 4); [change (bpow radix2 4) with 16; lra|apply bpow_lt; lia].
Qed.

Lemma valid64 : Valid_exp fexp64.
Proof. apply (fexp_correct 53 1024 eq_refl). Qed.
Lemma fmt_bpow e : (-1000 <= e <= 1024)%Z -> fmt64 (bpow radix2 e).
Proof. intros. apply generic_format_bpow. unfold SpecFloat.fexp, SpecFloat.emin. lia. Qed.
Lemma ulp_small z : Rabs z < bpow radix2 56 -> ulp radix2 fexp64 z <= 8.
Proof.
  intros Hz. replace 8 with (ulp radix2 fexp64 (bpow radix2 55)).
  2:{ rewrite ulp_bpow. reflexivity. }
  destruct (Req_dec z 0) as [->|H0].
  - apply ulp_le; [apply valid64|apply (fexp_monotone 53 1024)|]. rewrite Rabs_R0. apply Rabs_pos.
  - rewrite ulp_neq_0 by exact H0. rewrite ulp_bpow. apply bpow_le. unfold cexp.
    apply (fexp_monotone 53 1024). apply mag_le_bpow; auto.
Qed.
(** one turn: exact range, at least 2 radians of progress below 2^56 ... *)
Lemma rnd_step x : vpi < x -> x <= bpow radix2 56 -> - vpi <= rnd64 (x - 2 * vpi) <= x - 2.
Proof.
  intros H1 H2. pose proof vpi_bounds as Hp. split.
  - replace (- vpi) with (rnd64 (- vpi)) by (apply rnd_id, generic_format_opp, fmt_val). apply rnd_mono. lra.
  - assert (Rabs (x - 2 * vpi) < bpow radix2 56) as Ha.
    { apply Rabs_def1; [lra|]. assert (bpow radix2 2 <= bpow radix2 56) by (apply bpow_le; lia). change (bpow radix2 2) with 4 in *. lra. }
    pose proof (ulp_small _ Ha) as Hu. pose proof (error_le_half_ulp radix2 fexp64 (fun n => negb (Z.even n)) (x - 2 * vpi)) as He.
    assert (rnd64 (x - 2 * vpi) - (x - 2 * vpi) <= 4).
    { eapply Rle_trans; [apply Rle_abs|]. eapply Rle_trans; [apply He|]. lra. }
    lra.
Qed.
(** ... and none above *)
Lemma rnd_stuck x : fmt64 x -> bpow radix2 56 < x -> rnd64 (x - 2 * vpi) = x.
Proof.
  intros Hf Hx. pose proof vpi_bounds as Hp. pose proof valid64 as Vv. pose proof (bpow_gt_0 radix2 56). apply Rle_antisym.
  - rewrite <- (rnd_id x Hf) at 2. apply rnd_mono. lra.
  - apply round_N_ge_midp; auto.
    assert (bpow radix2 56 <= pred radix2 fexp64 x) as Hb.
    { apply pred_ge_gt; auto. apply fmt_bpow. lia. }
    pose proof (pred_plus_ulp radix2 fexp64 x) as Hpu. 
    assert (16 <= ulp radix2 fexp64 (pred radix2 fexp64 x)) as Hu.
    { replace 16 with (ulp radix2 fexp64 (bpow radix2 56)) by (rewrite ulp_bpow; reflexivity).
      apply ulp_le; [auto|apply (fexp_monotone 53 1024)|]. rewrite !Rabs_pos_eq; lra. }
    assert (0 < x) as Hx0 by lra. specialize (Hpu Hx0 Hf). lra.
Qed.
Lemma rnd_neg x : rnd64 (- x) = - rnd64 x.
Proof. apply round_NE_opp. Qed.

Lemma emax_big x : Rabs x <= bpow radix2 1000 -> ~ (bpow radix2 1024 <= Rabs (rnd64 x)).
Proof.
  intros H K. apply (rnd_abs_le _ 1000) in H; [|lia]. assert (bpow radix2 1000 < bpow radix2 1024) by (apply bpow_lt; lia). lra.
Qed.
(** the two loop bodies *)
Lemma sub_step a : finite a = true -> vpi < val a -> val a <= bpow radix2 56 ->
  finite (fsub64 a two_m_pi) = true /\ - vpi <= val (fsub64 a two_m_pi) <= val a - 2.
Proof.
  intros Fa H1 H2. destruct v2pi as (E & F2). pose proof vpi_bounds.
  destruct (fsub_cases a two_m_pi Fa F2) as [(Fs & Vs)|(_ & _ & Hc)].
  - split; auto. rewrite Vs, E. apply rnd_step; auto.
  - exfalso. apply (emax_big (val a - val two_m_pi)); auto. rewrite E.
    assert (bpow radix2 56 <= bpow radix2 1000) by (apply bpow_le; lia). assert (bpow radix2 2 <= bpow radix2 1000) by (apply bpow_le; lia).
    change (bpow radix2 2) with 4 in *. apply Rabs_le. lra.
Qed.
Lemma add_step a : finite a = true -> val a < - vpi -> - bpow radix2 56 <= val a ->
  finite (fadd64 a two_m_pi) = true /\ val a + 2 <= val (fadd64 a two_m_pi) <= vpi.
Proof.
  intros Fa H1 H2. destruct v2pi as (E & F2). pose proof vpi_bounds.
  destruct (fadd_cases a two_m_pi Fa F2) as [(Fs & Vs)|(_ & _ & Hc)].
  - split; auto. rewrite Vs, E. replace (val a + 2 * vpi) with (- (- val a - 2 * vpi)) by ring. rewrite rnd_neg.
    pose proof (rnd_step (- val a)). lra.
  - exfalso. apply (emax_big (val a + val two_m_pi)); auto. rewrite E.
    assert (bpow radix2 56 <= bpow radix2 1000) by (apply bpow_le; lia). assert (bpow radix2 2 <= bpow radix2 1000) by (apply bpow_le; lia).
    change (bpow radix2 2) with 4 in *. apply Rabs_le. lra.
Qed.
Lemma same_float (a b : f64) : finite a = true -> finite b = true -> val a = val b -> val a <> 0 -> a = b.
Proof. intros Fa Fb E N. apply val_inj; auto; intros H; exfalso; congruence. Qed.
Lemma sub_stuck a : finite a = true -> bpow radix2 56 < val a -> fsub64 a two_m_pi = a.
Proof.
  intros Fa H. destruct v2pi as (E & F2). pose proof vpi_bounds. pose proof (bpow_gt_0 radix2 56).
  assert (rnd64 (val a - val two_m_pi) = val a) as R. { rewrite E. apply rnd_stuck; auto. apply fmt_val. }
  destruct (fsub_cases a two_m_pi Fa F2) as [(Fs & Vs)|(_ & _ & Hc)].
  - rewrite R in Vs. apply same_float; auto; lra.
  - exfalso. rewrite R in Hc. pose proof (abs_B2R_lt_emax _ _ a). lra.
Qed.
Lemma add_stuck a : finite a = true -> val a < - bpow radix2 56 -> fadd64 a two_m_pi = a.
Proof.
  intros Fa H. destruct v2pi as (E & F2). pose proof vpi_bounds. pose proof (bpow_gt_0 radix2 56).
  assert (rnd64 (val a + val two_m_pi) = val a) as R.
  { rewrite E. replace (val a + 2 * vpi) with (- (- val a - 2 * vpi)) by ring. rewrite rnd_neg, rnd_stuck; [ring| |lra].
    apply generic_format_opp, fmt_val. }
  destruct (fadd_cases a two_m_pi Fa F2) as [(Fs & Vs)|(_ & _ & Hc)].
  - rewrite R in Vs. apply same_float; auto; lra.
  - exfalso. rewrite R in Hc. pose proof (abs_B2R_lt_emax _ _ a). lra.
Qed.
