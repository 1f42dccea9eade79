(** angleDifference on IEEE-754 doubles (Flocq binary64, round to nearest even):
    include/state_estimation/utilities/angle_utilities.h:44-48. *)
From Coq Require Import ZArith Reals Lra Lia Bool.
From Flocq Require Import Core IEEE754.BinarySingleNaN Sterbenz.
From Verif Require Import Outcome FloatTime Angles AngleFloat.
Open Scope Z_scope.

(** C's fmod on doubles (ISO C 7.12.10.1 and F.10.7.1): for finite x and finite non-zero y the
    remainder of the division of the significands on the common exponent, with the sign of x *)
Definition fmod64 (x y : f64) : f64 :=
  match x, y with
  | B754_finite sx mx ex _, B754_finite _ my ey _ =>
      let e := Z.min ex ey in
      let X := Z.pos mx * 2 ^ (ex - e) in
      let Y := Z.pos my * 2 ^ (ey - e) in
      binary_normalize 53 1024 _ _ mode_NE (cond_Zopp sx (X mod Y)) e sx
  | B754_zero s, B754_finite _ _ _ _ => B754_zero s
  | B754_zero _, B754_infinity _ => x
  | B754_finite _ _ _ _, B754_infinity _ => x
  | _, _ => B754_nan
  end.
(** :44-48, angleDifference *)
Definition angleDifference64 (theta1 theta2 : f64) : f64 :=
  let dtheta := fsub64 theta1 theta2 in
  let dtheta := fmod64 dtheta two_m_pi in
  fsub64 (fmod64 (Bmult mode_NE f_two dtheta) two_m_pi) dtheta.

Open Scope R_scope.
(** ** fmod is exact *)
Lemma F2R_scale m e e' : (e' <= e)%Z -> F2R (Float radix2 m e) = IZR (m * 2 ^ (e - e')) * bpow radix2 e'.
Proof.
  intros H. unfold F2R. cbn [Fnum Fexp]. rewrite mult_IZR. change (2 ^ (e - e'))%Z with (Zpower radix2 (e - e')).
  rewrite IZR_Zpower by lia. rewrite Rmult_assoc, <- bpow_plus. do 2 f_equal. lia.
Qed.
Lemma trunc_quot (X Y : Z) : (0 <= X)%Z -> (0 < Y)%Z -> Ztrunc (IZR X / IZR Y) = (X / Y)%Z.
Proof. intros HX HY. rewrite Ztrunc_floor; [apply Zfloor_div; lia|]. apply Rmult_le_pos; [apply IZR_le, HX|]. apply Rlt_le, Rinv_0_lt_compat, IZR_lt, HY. Qed.
Lemma cond_opp_R s z : IZR (cond_Zopp s z) = (if s then - IZR z else IZR z).
Proof. destruct s; simpl; [apply opp_IZR|reflexivity]. Qed.
Lemma mant_lt m e (H : SpecFloat.bounded 53 1024 m e = true) : (Z.pos m < 2 ^ 53)%Z /\ (-1074 <= e)%Z.
Proof.
  apply andb_prop in H. destruct H as [H1 H2]. apply Zeq_bool_eq in H1. unfold SpecFloat.canonical_mantissa, SpecFloat.fexp, SpecFloat.emin in H1.
  rewrite Digits.Zpos_digits2_pos in H1. split; [|lia].
  assert (Digits.Zdigits radix2 (Z.pos m) <= 53)%Z as D by lia.
  pose proof (Digits.Zdigits_correct radix2 (Z.pos m)) as [_ D2]. rewrite Z.abs_eq in D2 by lia.
  eapply Z.lt_le_trans; [exact D2|]. apply (Zpower_le radix2). exact D.
Qed.
Lemma fmod_finite x y : finite x = true -> finite y = true -> val y <> 0 ->
  finite (fmod64 x y) = true /\ val (fmod64 x y) = val x - val y * IZR (Ztrunc (val x / val y)).
Proof.
  intros Fx Fy Hy. destruct y as [sy|sy| |sy my ey By]; try discriminate; [exfalso; apply Hy; reflexivity|].
  destruct x as [sx|sx| |sx mx ex Bx]; try discriminate.
  { split; [reflexivity|]. simpl. unfold Rdiv. rewrite Rmult_0_l. change 0 with (IZR 0) at 3. rewrite Ztrunc_IZR. lra. }
  unfold fmod64. set (e := Z.min ex ey). set (X := (Z.pos mx * 2 ^ (ex - e))%Z). set (Y := (Z.pos my * 2 ^ (ey - e))%Z).
  assert (0 <= X)%Z as PX by (unfold X; apply Z.mul_nonneg_nonneg; [lia|apply Z.pow_nonneg; lia]).
  assert (0 < Y)%Z as PY by (unfold Y; apply Z.mul_pos_pos; [lia|apply Z.pow_pos_nonneg; unfold e; lia]).
  destruct (mant_lt mx ex Bx) as [Mx Ex]. destruct (mant_lt my ey By) as [My Ey].
  assert (0 <= X mod Y < 2 ^ 53)%Z as [R0 R1].
  { pose proof (Z.mod_pos_bound X Y PY) as B. split; [lia|]. destruct (Z_le_gt_dec ey ex) as [L|L].
    - assert (Y = Z.pos my) as EY by (unfold Y, e; rewrite Z.min_r, Z.sub_diag by lia; lia). lia.
    - assert (X = Z.pos mx) as EX by (unfold X, e; rewrite Z.min_l, Z.sub_diag by lia; lia).
      pose proof (Z.mod_le X Y PX PY). lia. }
  assert (-1074 <= e)%Z as Ee by (unfold e; lia).
  assert (val (B754_finite sx mx ex Bx) = (if sx then -1 else 1) * (IZR X * bpow radix2 e)) as Vx.
  { simpl. rewrite (F2R_scale _ ex e) by (unfold e; lia). destruct sx; cbn [cond_Zopp].
    - change (Z.neg mx) with (- Z.pos mx)%Z. rewrite Z.mul_opp_l, opp_IZR. unfold X. ring.
    - unfold X. ring. }
  assert (val (B754_finite sy my ey By) = (if sy then -1 else 1) * (IZR Y * bpow radix2 e)) as Vy.
  { simpl. rewrite (F2R_scale _ ey e) by (unfold e; lia). destruct sy; cbn [cond_Zopp].
    - change (Z.neg my) with (- Z.pos my)%Z. rewrite Z.mul_opp_l, opp_IZR. unfold Y. ring.
    - unfold Y. ring. }
  assert (0 < IZR Y) as PYR by (apply IZR_lt, PY). pose proof (bpow_gt_0 radix2 e) as Pe.
  assert (fmt64 (F2R (Float radix2 (cond_Zopp sx (X mod Y)) e))) as Fm.
  { apply (generic_format_FLT radix2 (-1074) 53). exists (Float radix2 (cond_Zopp sx (X mod Y)) e); [reflexivity| |exact Ee].
    cbn [Fnum]. rewrite abs_cond_Zopp, Z.abs_eq by lia. exact R1. }
  assert (Rabs (F2R (Float radix2 (cond_Zopp sx (X mod Y)) e)) <= Rabs (val (B754_finite sx mx ex Bx))) as Small.
  { rewrite Vx. unfold F2R. cbn [Fnum Fexp]. rewrite cond_opp_R, !Rabs_mult, !(Rabs_pos_eq (bpow radix2 e)), (Rabs_pos_eq (IZR X)) by (apply Rlt_le, Pe || apply IZR_le, PX).
    replace (Rabs (if sx then - IZR (X mod Y) else IZR (X mod Y))) with (IZR (X mod Y)) by (destruct sx; rewrite ?Rabs_Ropp, Rabs_pos_eq; auto; apply IZR_le, R0).
    replace (Rabs (if sx then -1 else 1)) with 1 by (destruct sx; rewrite ?Rabs_Ropp, ?Rabs_R1; rewrite Rabs_left || idtac; lra).
    rewrite Rmult_1_l. apply Rmult_le_compat_r; [lra|]. apply IZR_le, Z.mod_le; lia. }
  pose proof (binary_normalize_correct 53 1024 prec64_gt_0 prec64_lt mode_NE (cond_Zopp sx (X mod Y)) e sx) as N. cbv zeta in N. simpl round_mode in N.
  rewrite (rnd_id _ Fm), Rlt_bool_true in N.
  2:{ eapply Rle_lt_trans; [exact Small|]. apply abs_B2R_lt_emax. }
  destruct N as (Nv & Nf & _). split; [exact Nf|]. rewrite Nv, Vx, Vy.
  assert (Ztrunc ((if sx then -1 else 1) * (IZR X * bpow radix2 e) / ((if sy then -1 else 1) * (IZR Y * bpow radix2 e))) = cond_Zopp (xorb sx sy) (X / Y)) as ->.
  { rewrite <- (trunc_quot X Y PX PY). destruct sx, sy; cbn [xorb cond_Zopp]; rewrite <- ?Ztrunc_opp; f_equal; field; lra. }
  unfold F2R. cbn [Fnum Fexp]. rewrite !cond_opp_R. rewrite (Z.mod_eq X Y) by lia. rewrite minus_IZR, mult_IZR.
  destruct sx, sy; cbn [xorb]; ring.
Qed.
