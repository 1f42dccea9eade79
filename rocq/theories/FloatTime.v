(** Timestamps as IEEE-754 binary64 numbers (C++ double, round to nearest even), from Flocq.
    The instance of [TimeOps] used by the double-precision theorems. *)
From Coq Require Import ZArith Reals Lra Lia Bool.
From Flocq Require Import Core.Raux Core.Defs Core.Generic_fmt Core.FLT Core.Round_NE Core.Float_prop Core.Zaux Plus_error Sterbenz.
From Flocq Require Import IEEE754.BinarySingleNaN.
From Verif Require Import Outcome FB_Model FB_Time FB_Basic FB_Single.

Definition f64 : Type := binary_float 53 1024.
Global Instance prec64_gt_0 : FLX.Prec_gt_0 53 := eq_refl.
Global Instance prec64_lt : Prec_lt_emax 53 1024 := eq_refl.

Definition fadd64 : f64 -> f64 -> f64 := Bplus mode_NE.
Definition fsub64 : f64 -> f64 -> f64 := Bminus mode_NE.
Definition fnan : f64 := B754_nan.
Definition fzero : f64 := B754_zero false.
Definition finf : f64 := B754_infinity false.

(** the C++ operators on double *)
Definition FTime : TimeOps := {|
  T := f64;
  tlt a b := Bltb a b;
  tle a b := Bleb a b;
  tsub a b := fsub64 a b;
  tadd a b := fadd64 a b;
  tzero := fzero;
  tone := Bone;
  tinf := finf
|}.

Notation fexp64 := (SpecFloat.fexp 53 1024).
Notation rnd64 := (round radix2 fexp64 ZnearestE).
Notation fmt64 := (generic_format radix2 fexp64).
Notation val := (B2R (prec := 53) (emax := 1024)).
Notation finite := (is_finite (prec := 53) (emax := 1024)).

(** ** Comparisons *)
Lemma FTime_cmp : CmpOk FTime.
Proof.
  split; intros a b; simpl; unfold Bltb, Bleb, SpecFloat.SFltb, SpecFloat.SFleb.

  - change (SpecFloat.SFcompare (B2SF a) (B2SF b)) with (Bcompare a b). destruct (Bcompare a b) as [[]|]; auto.
  - change (SpecFloat.SFcompare (B2SF a) (B2SF b)) with (Bcompare a b).
    change (SpecFloat.SFcompare (B2SF b) (B2SF a)) with (Bcompare b a). rewrite (Bcompare_swap _ _ a b).
    destruct (Bcompare a b) as [[]|]; simpl; auto; discriminate.
Qed.

Lemma nan_lt_l b : tlt (t := FTime) fnan b = false.
Proof. destruct b; reflexivity. Qed.
Lemma nan_lt_r a : tlt (t := FTime) a fnan = false.
Proof. destruct a as [|[]| |]; reflexivity. Qed.
Lemma nan_le_l b : tle (t := FTime) fnan b = false.
Proof. destruct b; reflexivity. Qed.
Lemma nan_le_r a : tle (t := FTime) a fnan = false.
Proof. destruct a as [|[]| |]; reflexivity. Qed.
Lemma nan_sub_l b : tsub (t := FTime) fnan b = fnan.
Proof. destruct b; reflexivity. Qed.
Lemma nan_sub_r a : tsub (t := FTime) a fnan = fnan.
Proof. destruct a; reflexivity. Qed.
Lemma nan_add_l b : tadd (t := FTime) fnan b = fnan.
Proof. destruct b; reflexivity. Qed.
Lemma nan_add_r a : tadd (t := FTime) a fnan = fnan.
Proof. destruct a; reflexivity. Qed.

Lemma flt_val a b : finite a = true -> finite b = true -> tlt (t := FTime) a b = Rlt_bool (val a) (val b).
Proof. apply Bltb_correct. Qed.
Lemma fle_val a b : finite a = true -> finite b = true -> tle (t := FTime) a b = Rle_bool (val a) (val b).
Proof. apply Bleb_correct. Qed.

Lemma fmt_val a : fmt64 (val a).
Proof. apply generic_format_B2R. Qed.

Lemma round_NE_eq m : round_mode m = ZnearestE -> round radix2 fexp64 (round_mode m) = rnd64.
Proof. intros ->. reflexivity. Qed.

Lemma rnd_mono x y : (x <= y)%R -> (rnd64 x <= rnd64 y)%R.
Proof. apply round_le; [apply (fexp_correct 53 1024 eq_refl)|apply valid_rnd_N]. Qed.
Lemma rnd_id x : fmt64 x -> rnd64 x = x.
Proof. intros. apply round_generic; auto. apply valid_rnd_N. Qed.
Lemma rnd_0 : rnd64 0%R = 0%R.
Proof. apply round_0. apply valid_rnd_N. Qed.

(** ** The sign of a difference is right, with overflow and underflow *)
Lemma sub_neq_0 a b : finite a = true -> finite b = true -> val a <> val b -> rnd64 (val a - val b) <> 0%R.
Proof.
  intros Fa Fb Hne. unfold Rminus. apply round_plus_neq_0.
  - apply (fexp_correct 53 1024 eq_refl).
  - apply monotone_exp_not_FTZ; [apply (fexp_correct 53 1024 eq_refl)|apply (fexp_monotone 53 1024)].
  - apply valid_rnd_N.
  - apply fmt_val.
  - apply generic_format_opp, fmt_val.
  - lra.
Qed.

Lemma Bsign_le (a : f64) : finite a = true -> if Bsign a then (val a <= 0)%R else (0 <= val a)%R.
Proof.
  destruct a as [s|s| |s m e B]; simpl; try discriminate; intros _.
  - destruct s; lra.
  - destruct s; [apply F2R_le_0; simpl; lia|apply F2R_ge_0; simpl; lia].
Qed.

Lemma fsub_cases a b : finite a = true -> finite b = true ->
  (finite (fsub64 a b) = true /\ val (fsub64 a b) = rnd64 (val a - val b)) \/
  (fsub64 a b = B754_infinity (Bsign a) /\ (if Bsign a then (val a < val b)%R else (val b < val a)%R) /\
   (bpow radix2 1024 <= Rabs (rnd64 (val a - val b)))%R).
Proof.
  intros Fa Fb. pose proof (Bminus_correct _ _ _ _ mode_NE a b Fa Fb) as Hc. simpl round_mode in Hc.
  fold (fsub64 a b) in Hc. revert Hc. case Rlt_bool_spec; intros Hr Hc.
  - left. tauto.
  - right. destruct Hc as (Ho & Hs). split.
    + apply B2SF_inj. rewrite Ho. reflexivity.
    + assert (Hne : val a <> val b).
      { intros He. rewrite He, Rminus_diag_eq, rnd_0, Rabs_R0 in Hr; auto.
        pose proof (bpow_gt_0 radix2 1024). lra. }
      split; auto.
      pose proof (Bsign_le a Fa) as Sa. pose proof (Bsign_le b Fb) as Sb. destruct (Bsign a), (Bsign b); simpl in *; try discriminate; lra.
Qed.

Lemma fadd_cases a b : finite a = true -> finite b = true ->
  (finite (fadd64 a b) = true /\ val (fadd64 a b) = rnd64 (val a + val b)) \/
  (fadd64 a b = B754_infinity (Bsign a) /\ Bsign a = Bsign b /\ (bpow radix2 1024 <= Rabs (rnd64 (val a + val b)))%R).
Proof.
  intros Fa Fb. pose proof (Bplus_correct _ _ _ _ mode_NE a b Fa Fb) as Hc. simpl round_mode in Hc.
  fold (fadd64 a b) in Hc. revert Hc. case Rlt_bool_spec; intros Hr Hc.
  - left. tauto.
  - right. destruct Hc as (Ho & Hs). split; auto. apply B2SF_inj. rewrite Ho. reflexivity.
Qed.

Lemma fsub_nonneg a b : finite a = true -> finite b = true ->
  tle (t := FTime) tzero (tsub (t := FTime) a b) = tle (t := FTime) b a.
Proof.
  intros Fa Fb. rewrite (fle_val b a) by auto. simpl tsub. simpl tzero.
  destruct (fsub_cases a b Fa Fb) as [(Ff & Hv)|(He & Hv & _)].
  - rewrite fle_val by auto. rewrite Hv. change (val fzero) with 0%R.
    case (Rle_bool_spec (val b) (val a)); intros Hab.
    + apply Rle_bool_true. rewrite <- rnd_0. apply rnd_mono. lra.
    + apply Rle_bool_false. assert (Hn : (rnd64 (val a - val b) <= 0)%R) by (rewrite <- rnd_0; apply rnd_mono; lra).
      pose proof (sub_neq_0 a b Fa Fb). lra.
  - rewrite He. destruct (Bsign a); simpl.
    + rewrite Rle_bool_false by auto. reflexivity.
    + rewrite Rle_bool_true by lra. reflexivity.
Qed.

Lemma fsub_pos a b : finite a = true -> finite b = true ->
  tlt (t := FTime) tzero (tsub (t := FTime) a b) = tlt (t := FTime) b a.
Proof.
  intros Fa Fb. rewrite (flt_val b a) by auto. simpl tsub. simpl tzero.
  destruct (fsub_cases a b Fa Fb) as [(Ff & Hv)|(He & Hv & _)].
  - rewrite flt_val by auto. rewrite Hv. change (val fzero) with 0%R.
    case (Rlt_bool_spec (val b) (val a)); intros Hab.
    + apply Rlt_bool_true. assert (Hn : (0 <= rnd64 (val a - val b))%R) by (rewrite <- rnd_0; apply rnd_mono; lra).
      pose proof (sub_neq_0 a b Fa Fb). lra.
    + apply Rlt_bool_false. rewrite <- rnd_0. apply rnd_mono. lra.
  - rewrite He. destruct (Bsign a); simpl.
    + rewrite Rlt_bool_false by lra. reflexivity.
    + rewrite Rlt_bool_true by auto. reflexivity.
Qed.

(** ** [now + (t - now)] *)
Lemma fadv_ge now t : finite now = true -> finite t = true -> tle (t := FTime) now t = true ->
  tle (t := FTime) now (tadd (t := FTime) now (tsub (t := FTime) t now)) = true.
Proof.
  intros Fn Ft Hle. rewrite fle_val in Hle by auto.
  assert (Hl : (val now <= val t)%R). { revert Hle. case Rle_bool_spec; auto; discriminate. }
  simpl tsub. simpl tadd. destruct (fsub_cases t now Ft Fn) as [(Ff & Hv)|(He & Hv & _)].
  - assert (Hd : (0 <= val (fsub64 t now))%R) by (rewrite Hv, <- rnd_0; apply rnd_mono; lra).
    destruct (fadd_cases now (fsub64 t now) Fn Ff) as [(Fa & Ha)|(Ha & Hs & Hb)].
    + rewrite fle_val by auto. apply Rle_bool_true. rewrite Ha, <- (rnd_id (val now)) at 1 by apply fmt_val.
      apply rnd_mono. lra.
    + rewrite Ha. destruct (Bsign now) eqn:Es.
      * exfalso. pose proof (Bsign_le _ Ff) as S2. rewrite <- Hs in S2.
        pose proof (Bsign_le _ Fn) as S1. rewrite Es in S1.
        assert (H0 : val (fsub64 t now) = 0%R) by lra. rewrite H0, Rplus_0_r, rnd_id in Hb by apply fmt_val.
        pose proof (abs_B2R_lt_emax _ _ now). lra.
      * destruct now as [|[]| |[]]; try discriminate; reflexivity.
  - destruct (Bsign t) eqn:Es; [lra|]. rewrite He. destruct now as [|[]| |[]]; try discriminate; reflexivity.
Qed.

(** finite as long as the times are below 2^1000 in magnitude *)
Definition moderate (t : f64) : Prop := finite t = true /\ (Rabs (val t) <= bpow radix2 1000)%R.

Lemma rnd_abs_le x e : (-1000 <= e <= 1024)%Z -> (Rabs x <= bpow radix2 e)%R -> (Rabs (rnd64 x) <= bpow radix2 e)%R.
Proof.
  intros He Hx. apply abs_round_le_generic; auto.
  - apply (fexp_correct 53 1024 eq_refl).
  - apply valid_rnd_N.
  - apply generic_format_bpow. unfold SpecFloat.fexp, SpecFloat.emin. lia.
Qed.

Lemma fadv_finite now t : moderate now -> moderate t -> finite (tsub (t := FTime) t now) = true /\
  finite (tadd (t := FTime) now (tsub (t := FTime) t now)) = true.
Proof.
  intros (Fn & Bn) (Ft & Bt). simpl tsub. simpl tadd.
  assert (B1 : (Rabs (val t - val now) <= bpow radix2 1001)%R).
  { eapply Rle_trans; [apply Rabs_triang|]. rewrite Rabs_Ropp. change 1001%Z with (1 + 1000)%Z. rewrite bpow_plus.
    change (bpow radix2 1) with 2%R. lra. }
  assert (Hlt : (bpow radix2 1002 < bpow radix2 1024)%R) by (apply bpow_lt; lia).
  assert (Hlt1 : (bpow radix2 1001 < bpow radix2 1002)%R) by (apply bpow_lt; lia).
  assert (S1 : finite (fsub64 t now) = true /\ val (fsub64 t now) = rnd64 (val t - val now)).
  { pose proof (Bminus_correct _ _ _ _ mode_NE t now Ft Fn) as Hc. simpl round_mode in Hc. fold (fsub64 t now) in Hc.
    rewrite Rlt_bool_true in Hc; [tauto|]. eapply Rle_lt_trans; [apply (rnd_abs_le _ 1001)|]; auto; [lia|lra]. }
  destruct S1 as (Fs & Vs). split; auto.
  assert (Bs : (Rabs (val (fsub64 t now)) <= bpow radix2 1001)%R) by (rewrite Vs; apply rnd_abs_le; auto; lia).
  destruct (fadd_cases now (fsub64 t now) Fn Fs) as [(Fa & _)|(_ & _ & Hb)]; auto. exfalso.
  assert (B2 : (Rabs (rnd64 (val now + val (fsub64 t now))) <= bpow radix2 1002)%R).
  { apply rnd_abs_le; [lia|]. eapply Rle_trans; [apply Rabs_triang|].
    assert (bpow radix2 1000 <= bpow radix2 1001)%R by (apply bpow_le; lia).
    change 1002%Z with (1 + 1001)%Z. rewrite bpow_plus. change (bpow radix2 1) with 2%R. lra. }
  lra.
Qed.

(** exact when the difference is representable *)
Lemma fsub_sign a b : finite a = true -> finite b = true -> (Rabs (rnd64 (val a - val b)) < bpow radix2 1024)%R ->
  val a = val b -> Bsign (fsub64 a b) = andb (Bsign a) (negb (Bsign b)).
Proof.
  intros Fa Fb Hr He. pose proof (Bminus_correct _ _ _ _ mode_NE a b Fa Fb) as Hc. simpl round_mode in Hc.
  rewrite Rlt_bool_true in Hc by auto. destruct Hc as (_ & _ & Hc). rewrite Rcompare_Eq in Hc by lra. exact Hc.
Qed.
Lemma fadd_sign a b : finite a = true -> finite b = true -> (Rabs (rnd64 (val a + val b)) < bpow radix2 1024)%R ->
  (val a + val b = 0)%R -> Bsign (fadd64 a b) = andb (Bsign a) (Bsign b).
Proof.
  intros Fa Fb Hr He. pose proof (Bplus_correct _ _ _ _ mode_NE a b Fa Fb) as Hc. simpl round_mode in Hc.
  rewrite Rlt_bool_true in Hc by auto. destruct Hc as (_ & _ & Hc). rewrite Rcompare_Eq in Hc by lra. exact Hc.
Qed.

Definition not_m0 (t : f64) : Prop := val t = 0%R -> Bsign t = false.

Lemma val_inj a b : finite a = true -> finite b = true -> val a = val b -> not_m0 a -> not_m0 b -> a = b.
Proof.
  intros Fa Fb He Ha Hb. apply B2R_Bsign_inj; auto.
  destruct (Req_dec (val a) 0) as [H0|H0]; [rewrite Ha, Hb; congruence|].
  assert (Hs : forall c : f64, finite c = true -> val c <> 0%R -> Bsign c = Rlt_bool (val c) 0).
  { intros c Fc Hc. pose proof (Bsign_le c Fc). destruct (Bsign c); symmetry; [apply Rlt_bool_true|apply Rlt_bool_false]; lra. }
  rewrite !Hs, He; congruence.
Qed.

Lemma fadv_exact now t : finite now = true -> finite t = true -> not_m0 t ->
  fmt64 (val t - val now) -> (Rabs (val t - val now) < bpow radix2 1024)%R ->
  val (tsub (t := FTime) t now) = (val t - val now)%R /\ finite (tsub (t := FTime) t now) = true /\ tadd (t := FTime) now (tsub (t := FTime) t now) = t.
Proof.
  intros Fn Ft Hz Hf Hb. simpl tsub. simpl tadd.
  destruct (fsub_cases t now Ft Fn) as [(Fs & Vs)|(_ & _ & Hc)]; [|rewrite rnd_id in Hc by auto; lra].
  rewrite rnd_id in Vs by auto. split; auto. split; auto.
  assert (Hsum : (val now + val (fsub64 t now) = val t)%R) by (rewrite Vs; ring).
  destruct (fadd_cases now (fsub64 t now) Fn Fs) as [(Fa & Va)|(_ & _ & Hc)].
  2:{ rewrite Hsum, rnd_id in Hc by apply fmt_val. pose proof (abs_B2R_lt_emax _ _ t). lra. }
  rewrite Hsum, rnd_id in Va by apply fmt_val. apply val_inj; auto.
  intros H0. rewrite fadd_sign; auto; [| |lra].
  2:{ rewrite Hsum, rnd_id by apply fmt_val. apply (abs_B2R_lt_emax _ _ t). }
  destruct (Req_dec (val now) 0) as [Hn|Hn].
  - rewrite fsub_sign; auto; [rewrite Hz by lra; apply andb_false_r| |lra]. rewrite rnd_id by auto. exact Hb.
  - assert (Hs : forall c : f64, finite c = true -> val c <> 0%R -> Bsign c = Rlt_bool (val c) 0).
    { intros c Fc Hc. pose proof (Bsign_le c Fc). destruct (Bsign c); symmetry; [apply Rlt_bool_true|apply Rlt_bool_false]; lra. }
    rewrite !Hs; auto; [|lra]. case Rlt_bool_spec; case Rlt_bool_spec; intros; auto; lra.
Qed.

(** in particular when the new time is at most twice the old one (Sterbenz) *)
Lemma fadv_sterbenz now t : finite now = true -> finite t = true ->
  (0 < val now)%R -> (val now <= val t <= 2 * val now)%R ->
  tadd (t := FTime) now (tsub (t := FTime) t now) = t.
Proof.
  intros Fn Ft Hp Hr. apply fadv_exact; auto.
  - intros H0. lra.
  - apply sterbenz; try apply fmt_val; [apply (fexp_correct 53 1024 eq_refl)|apply (fexp_monotone 53 1024)|lra].
  - pose proof (abs_B2R_lt_emax _ _ now) as Ha. rewrite Rabs_pos_eq by lra. rewrite Rabs_pos_eq in Ha by lra. lra.
Qed.

(** ** Timestamps on a dyadic grid: multiples of 2^-k up to 2^(52-k).  On them double arithmetic
    is exact and every theorem about [ExactTime] holds for doubles. *)
Definition grid (k : Z) (t : f64) : Prop :=
  finite t = true /\ not_m0 t /\ exists z, val t = (IZR z * bpow radix2 (-k))%R /\ (Z.abs z <= 2 ^ 52)%Z.

Lemma grid_fmt k z : (0 <= k <= 52)%Z -> (Z.abs z <= 2 ^ 53)%Z -> fmt64 (IZR z * bpow radix2 (-k)).
Proof.
  intros Hk Hz.
  destruct (Z.eq_dec (Z.abs z) (2 ^ 53)) as [He|Hne].
  - assert (Hp : fmt64 (bpow radix2 (53 - k))).
    { apply generic_format_bpow. unfold SpecFloat.fexp, SpecFloat.emin. lia. }
    assert (Hb : bpow radix2 (53 - k) = (IZR (2 ^ 53) * bpow radix2 (-k))%R).
    { unfold Z.sub. rewrite bpow_plus. f_equal. }
    destruct (Z.abs_spec z) as [[_ Ha]|[_ Ha]].
    + replace z with (2 ^ 53)%Z by lia. rewrite <- Hb. exact Hp.
    + replace z with (- (2 ^ 53))%Z by lia. rewrite opp_IZR, Ropp_mult_distr_l_reverse, <- Hb. apply generic_format_opp, Hp.
  - apply (generic_format_FLT radix2 (-1074) 53). exists (Float radix2 z (-k)); simpl; [reflexivity|lia|lia].
Qed.

Lemma grid_sub k a b : (0 <= k <= 52)%Z -> grid k a -> grid k b ->
  fmt64 (val a - val b) /\ (Rabs (val a - val b) < bpow radix2 1024)%R.
Proof.
  intros Hk (Fa & _ & za & Va & Ba) (Fb & _ & zb & Vb & Bb).
  assert (He : (val a - val b = IZR (za - zb) * bpow radix2 (-k))%R) by (rewrite Va, Vb, minus_IZR; ring).
  rewrite He. split; [apply grid_fmt; auto; lia|].
  rewrite Rabs_mult, (Rabs_pos_eq (bpow _ _)) by apply bpow_ge_0.
  apply Rle_lt_trans with (bpow radix2 53 * 1)%R.
  - apply Rmult_le_compat; [apply Rabs_pos|apply bpow_ge_0| |].
    + rewrite <- abs_IZR. change (bpow radix2 53) with (IZR (2 ^ 53)). apply IZR_le. lia.
    + change 1%R with (bpow radix2 0). apply bpow_le. lia.
  - rewrite Rmult_1_r. apply bpow_lt. lia.
Qed.

Lemma Rle_bool_iff x y : Rle_bool x y = true <-> (x <= y)%R.
Proof. split; [case Rle_bool_spec; auto; discriminate|apply Rle_bool_true]. Qed.

Lemma FTime_exact k : (0 <= k <= 52)%Z -> ExactTime FTime (grid k).
Proof.
  intros Hk. constructor.
  - apply FTime_cmp.
  - intros a b (Fa & _) (Fb & _). rewrite flt_val, fle_val by auto. case Rlt_bool_spec; case Rle_bool_spec; intros; auto; lra.
  - intros a (Fa & _). rewrite fle_val by auto. apply Rle_bool_true. lra.
  - intros a b c (Fa & _) (Fb & _) (Fc & _). rewrite !fle_val by auto. rewrite !Rle_bool_iff. lra.
  - intros a b (Fa & Za & _) (Fb & Zb & _). rewrite !fle_val by auto. rewrite !Rle_bool_iff. intros. apply val_inj; auto. lra.
  - intros a b (Fa & _) (Fb & _). rewrite !fle_val by auto. rewrite !Rle_bool_iff. lra.
  - split; [reflexivity|]. split; [intros _; reflexivity|]. exists 0%Z. split; [simpl; ring|simpl; lia].
  - split; [apply is_finite_Bone|]. split; [intros _; apply Bsign_Bone|]. exists (2 ^ k)%Z.
    simpl tone. rewrite Bone_correct. split.
    + rewrite (IZR_Zpower radix2) by lia. rewrite <- bpow_plus, Z.add_opp_diag_r. reflexivity.
    + rewrite Z.abs_eq by (apply Z.pow_nonneg; lia). apply Z.pow_le_mono_r; lia.
  - intros a b c (Fa & _) (Fb & _) Hcb Hba. destruct (finite c) eqn:Fc.
    + rewrite fle_val in Hcb, Hba by auto. rewrite flt_val by auto. rewrite Rle_bool_iff in *. apply Rlt_bool_false. lra.
    + destruct c as [|[]| |]; try discriminate.
      * destruct a as [|[]| |[]]; try discriminate; reflexivity.
      * destruct b as [|[]| |[]]; discriminate.
  - intros a b Ga Gb. destruct (grid_sub k b a Hk Gb Ga) as (H1 & H2).
    apply (fadv_exact a b); auto; try apply Ga; apply Gb.
  - intros a b (Fa & _) (Fb & _). apply fsub_nonneg; auto.
  - intros a b (Fa & _) (Fb & _). apply fsub_pos; auto.
  - intros a (Fa & _). destruct a as [|[]| |[]]; try discriminate; reflexivity.
Qed.
