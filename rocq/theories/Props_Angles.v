(** C53, C55 - C57: angles in exact arithmetic. *)
From Coq Require Import Reals List Lra Lia ZArith.
From Verif Require Import Outcome Angles.
Import ListNotations.
Open Scope R_scope.

(** equal up to full turns *)
Definition congruent (a b : R) : Prop := exists k : Z, a = b + IZR k * (2 * PI).
Lemma congruent_refl a : congruent a a.
Proof. exists 0%Z. simpl. lra. Qed.
Lemma congruent_sym a b : congruent a b -> congruent b a.
Proof. intros [k ->]. exists (- k)%Z. rewrite opp_IZR. lra. Qed.
Lemma congruent_trans a b c : congruent a b -> congruent b c -> congruent a c.
Proof. intros [k ->] [l ->]. exists (k + l)%Z. rewrite plus_IZR. lra. Qed.
Lemma congruent_plus a b c d : congruent a b -> congruent c d -> congruent (a + c) (b + d).
Proof. intros [k ->] [l ->]. exists (k + l)%Z. rewrite plus_IZR. lra. Qed.
Lemma congruent_opp a b : congruent a b -> congruent (- a) (- b).
Proof. intros [k ->]. exists (- k)%Z. rewrite opp_IZR. lra. Qed.
Lemma congruent_sin a b : congruent a b -> sin a = sin b.
Proof.
  intros [k ->]. destruct k as [|p|p]; simpl.
  - f_equal. lra.
  - rewrite <- (sin_period b (Pos.to_nat p)). f_equal. rewrite INR_IPR. unfold IZR. lra.
  - rewrite <- (sin_period (b + IZR (Z.neg p) * (2 * PI)) (Pos.to_nat p)). f_equal. rewrite INR_IPR. unfold IZR. lra.
Qed.
Lemma congruent_cos a b : congruent a b -> cos a = cos b.
Proof.
  intros H. rewrite <- !sin_shift. apply congruent_sin.
  apply (congruent_plus (PI / 2) (PI / 2)); [apply congruent_refl|apply congruent_opp, H].
Qed.

(** ** C53 *)
Lemma gtb_true x y : gtb x y = true <-> y < x.
Proof. unfold gtb. destruct (Rlt_dec y x); intuition; discriminate. Qed.
Lemma gtb_false x y : gtb x y = false <-> x <= y.
Proof. unfold gtb. destruct (Rlt_dec y x); intuition; try discriminate; lra. Qed.

Lemma while_more {A} (cond : A -> bool) step fuel fuel' a b : (fuel <= fuel')%nat ->
  while fuel cond step a = Some b -> while fuel' cond step a = Some b.
Proof.
  revert fuel' a. induction fuel as [|k IH]; intros [|k'] a Hle; simpl; try discriminate; try lia.
  destruct (cond a); auto. apply IH. lia.
Qed.
Lemma while_det {A} (cond : A -> bool) step fuel fuel' a b b' :
  while fuel cond step a = Some b -> while fuel' cond step a = Some b' -> b = b'.
Proof.
  intros H H'. apply (while_more _ _ _ (max fuel fuel')) in H; [|lia]. apply (while_more _ _ _ (max fuel fuel')) in H'; [|lia].
  congruence.
Qed.

Lemma down_loop fuel a : a <= PI + INR fuel * (2 * PI) ->
  exists b, while (S fuel) (fun x => gtb x PI) (fun x => x - 2 * PI) a = Some b
         /\ b <= PI /\ congruent a b /\ (a <= PI -> b = a) /\ (PI < a -> - PI < b).
Proof.
  revert a. induction fuel as [|k IH]; intros a Ha.
  - simpl in Ha. exists a. simpl. assert (gtb a PI = false) as -> by (apply gtb_false; lra).
    repeat split; auto; try lra. apply congruent_refl.
  - rewrite S_INR in Ha. pose proof PI_RGT_0 as Hpi. destruct (Rlt_dec PI a) as [Hlt|Hge].
    + destruct (IH (a - 2 * PI)) as (b & Hb & H1 & H2 & H3 & H4); [lra|].
      exists b. split; [|split; [auto|split; [|split; [intros; exfalso; lra|]]]].
      * change (while (S (S k)) (fun x => gtb x PI) (fun x => x - 2 * PI) a)
          with (if gtb a PI then while (S k) (fun x => gtb x PI) (fun x => x - 2 * PI) (a - 2 * PI) else Some a).
        apply gtb_true in Hlt. rewrite Hlt. exact Hb.
      * apply (congruent_trans _ (a - 2 * PI)); auto. exists 1%Z. lra.
      * intros _. destruct (Rlt_dec PI (a - 2 * PI)); auto. rewrite H3; lra.
    + exists a. simpl. assert (gtb a PI = false) as -> by (apply gtb_false; lra).
      repeat split; auto; try lra. apply congruent_refl.
Qed.
Lemma up_loop fuel a : - PI - INR fuel * (2 * PI) <= a ->
  exists b, while (S fuel) (fun x => gtb (- PI) x) (fun x => x + 2 * PI) a = Some b
         /\ - PI <= b /\ congruent a b /\ (- PI <= a -> b = a) /\ (a < - PI -> b < PI).
Proof.
  revert a. induction fuel as [|k IH]; intros a Ha.
  - simpl in Ha. exists a. simpl. assert (gtb (- PI) a = false) as -> by (apply gtb_false; lra).
    repeat split; auto; try lra. apply congruent_refl.
  - rewrite S_INR in Ha. pose proof PI_RGT_0 as Hpi. destruct (Rlt_dec a (- PI)) as [Hlt|Hge].
    + destruct (IH (a + 2 * PI)) as (b & Hb & H1 & H2 & H3 & H4); [lra|].
      exists b. split; [|split; [auto|split; [|split; [intros; exfalso; lra|]]]].
      * change (while (S (S k)) (fun x => gtb (- PI) x) (fun x => x + 2 * PI) a)
          with (if gtb (- PI) a then while (S k) (fun x => gtb (- PI) x) (fun x => x + 2 * PI) (a + 2 * PI) else Some a).
        apply gtb_true in Hlt. rewrite Hlt. exact Hb.
      * apply (congruent_trans _ (a + 2 * PI)); auto. exists (-1)%Z. lra.
      * intros _. destruct (Rlt_dec (a + 2 * PI) (- PI)); auto. rewrite H3; lra.
    + exists a. simpl. assert (gtb (- PI) a = false) as -> by (apply gtb_false; lra).
      repeat split; auto; try lra. apply congruent_refl.
Qed.
Lemma fuel_enough a : exists k, fuel_for a = S k /\ Rabs a <= INR k * (2 * PI).
Proof.
  unfold fuel_for. eexists. split; [reflexivity|]. pose proof PI_RGT_0 as Hpi.
  set (r := Rabs a / (2 * PI)). assert (0 <= r) as Hr.
  { unfold r. apply Rmult_le_pos; [apply Rabs_pos|]. left. apply Rinv_0_lt_compat. lra. }
  destruct (archimed r) as [H1 _]. assert (0 <= up r)%Z as Hu.
  { apply le_IZR. lra. }
  rewrite INR_IZR_INZ, Z2Nat.id by exact Hu.
  replace (Rabs a) with (r * (2 * PI)) by (unfold r; field; lra). apply Rmult_le_compat_r; lra.
Qed.

Theorem C53_constrainAngle (a : R) :
  exists b, constrainAngle a = Ok b /\ constrain_returns a b
   /\ - PI <= b <= PI /\ congruent b a /\ (- PI <= a <= PI -> b = a).
Proof.
  destruct (fuel_enough a) as (k & Hk & Ha). pose proof PI_RGT_0 as Hpi.
  pose proof (Rle_abs a) as H1. pose proof (Rle_abs (- a)) as H2. rewrite Rabs_Ropp in H2.
  destruct (down_loop k a) as (c & Hc & c1 & c2 & c3 & c4); [lra|].
  destruct (up_loop k c) as (b & Hb & b1 & b2 & b3 & b4).
  { destruct (Rlt_dec PI a); [specialize (c4 r)|rewrite c3; lra].
    pose proof (pos_INR k). assert (0 <= INR k * (2 * PI)) by (apply Rmult_le_pos; lra). lra. }
  exists b. split; [|split; [|split; [|split]]].
  - unfold constrainAngle. rewrite Hk, Hc, Hb. reflexivity.
  - exists c. split; eexists; eassumption.
  - split; auto. destruct (Rlt_dec c (- PI)); [specialize (b4 r); lra|rewrite b3; lra].
  - apply congruent_sym, (congruent_trans _ c); auto.
  - intros. rewrite b3, c3; lra.
Qed.
(** the function is the program: the loops end, with this result and no other *)
Theorem C53_function_is_program (a b : R) : constrainAngle a = Ok b <-> constrain_returns a b.
Proof.
  destruct (C53_constrainAngle a) as (b' & H1 & H2 & _). rewrite H1. split.
  - intros [= <-]. exact H2.
  - intros (c & (f1 & E1) & (f2 & E2)). destruct H2 as (c' & (g1 & G1) & (g2 & G2)).
    assert (c = c') by (eapply while_det; eauto). subst c'. f_equal. eapply while_det; eauto.
Qed.
(** angles on the boundary are kept, others have exactly one equivalent in range *)
Theorem C53_unique (a b b' : R) : constrainAngle a = Ok b -> - PI < b < PI -> - PI <= b' <= PI -> congruent b' a -> b' = b.
Proof.
  intros H Hb Hb' Hc. destruct (C53_constrainAngle a) as (b2 & H1 & _ & _ & H2 & _).
  assert (b2 = b) by congruence. subst b2.
  destruct (congruent_trans _ _ _ Hc (congruent_sym _ _ H2)) as [k Hk]. pose proof PI_RGT_0.
  assert (k = 0)%Z; [|subst k; lra].
  assert (-1 < IZR k < 1) as [K1 K2].
  { split; apply (Rmult_lt_reg_r (2 * PI)); lra. }
  apply lt_IZR in K1. apply lt_IZR in K2. lia.
Qed.
Theorem C53_vector (a : list R) : exists b, constrainAngles a = Ok b /\ Forall2 (fun x y => constrain_returns x y) a b.
Proof.
  induction a as [|x a (b & IH1 & IH2)]; simpl; [eexists; split; [reflexivity|constructor]|].
  destruct (C53_constrainAngle x) as (y & -> & H & _). simpl. rewrite IH1. simpl. eexists; split; [reflexivity|]. constructor; auto.
Qed.

Example C53_nonvacuous : constrainAngle (7 * PI / 2) = Ok (- (PI / 2)).
Proof.
  apply C53_function_is_program. pose proof PI_RGT_0 as H. exists (- (PI / 2)). split.
  - exists 3%nat. simpl. assert (gtb (7 * PI / 2) PI = true) as -> by (apply gtb_true; lra).
    assert (gtb (7 * PI / 2 - 2 * PI) PI = true) as -> by (apply gtb_true; lra).
    assert (gtb (7 * PI / 2 - 2 * PI - 2 * PI) PI = false) as -> by (apply gtb_false; lra). f_equal. lra.
  - exists 1%nat. simpl. assert (gtb (- PI) (- (PI / 2)) = false) as -> by (apply gtb_false; lra). reflexivity.
Qed.

(** ** C55 *)
Lemma fmod_spec x y : 0 < y -> (exists k : Z, fmod x y = x - y * IZR k) /\ (0 <= x -> 0 <= fmod x y < y) /\ (x <= 0 -> - y < fmod x y <= 0).
Proof.
  intros Hy. split; [eexists; reflexivity|].
  assert (forall r, 0 <= r -> let n := Int_part r in 0 <= r - IZR n < 1) as Hi.
  { intros r _ n. destruct (base_Int_part r) as [A B]. fold n in A, B. lra. }
  assert (forall r, y * (r / y) = r) as Hm by (intros; field; lra).
  split; intros Hx; unfold fmod, trunc.
  - assert (0 <= x / y) as Hq by (apply Rmult_le_pos; [lra|left; apply Rinv_0_lt_compat; lra]).
    destruct (Rle_dec 0 (x / y)); [|lra]. specialize (Hi _ Hq). cbv zeta in Hi. set (n := IZR (Int_part (x / y))) in *.
    replace (x - y * n) with (y * (x / y - n)) by (rewrite Rmult_minus_distr_l, Hm; lra).
    split; [apply Rmult_le_pos; lra|]. rewrite <- (Rmult_1_r y) at 3. apply Rmult_lt_compat_l; lra.
  - destruct (Rle_dec 0 (x / y)) as [Hq|Hq].
    + assert (x = 0) as ->. { specialize (Hm x). assert (0 <= y * (x / y)) by (apply Rmult_le_pos; lra). lra. }
      specialize (Hi _ Hq). cbv zeta in Hi. set (n := Int_part (0 / y)) in *.
      replace (0 / y) with 0 in Hi by (field; lra).
      assert (n = 0)%Z as ->; [|simpl; lra].
      assert (-1 < IZR n < 1) as [A B] by lra. apply lt_IZR in A. apply lt_IZR in B. lia.
    + assert (0 <= - (x / y)) as Hq' by lra. specialize (Hi _ Hq'). cbv zeta in Hi.
      rewrite opp_IZR. set (n := IZR (Int_part (- (x / y)))) in *.
      replace (x - y * - n) with (- (y * (- (x / y) - n))) by (transitivity (y * (x / y) - y * - n); [ring|rewrite Hm; ring]).
      assert (0 <= y * (- (x / y) - n)) by (apply Rmult_le_pos; lra).
      assert (y * (- (x / y) - n) < y * 1) by (apply Rmult_lt_compat_l; lra). lra.
Qed.
Lemma fmod_unique x y r (k : Z) : 0 < y -> x = r + y * IZR k -> (0 <= x /\ 0 <= r < y \/ x <= 0 /\ - y < r <= 0) -> fmod x y = r.
Proof.
  intros Hy Hx Hr. destruct (fmod_spec x y Hy) as ((l & Hl) & Hp & Hn).
  assert (- y < y * IZR (k - l) < y) as [A B].
  { rewrite minus_IZR. destruct Hr as [[H1 H2]|[H1 H2]]; [specialize (Hp H1)|specialize (Hn H1)]; lra. }
  assert (-1 < IZR (k - l) < 1) as [A' B'].
  { split; apply (Rmult_lt_reg_l y); lra. }
  apply lt_IZR in A'. apply lt_IZR in B'. assert (k = l) by lia. subst l. lra.
Qed.
Lemma fmod_opp x y : 0 < y -> fmod (- x) y = - fmod x y.
Proof.
  intros Hy. destruct (fmod_spec x y Hy) as ((l & Hl) & Hp & Hn). apply (fmod_unique _ _ _ (- l)); auto.
  - rewrite opp_IZR, Hl. lra.
  - destruct (Rle_dec 0 x) as [H|H]; [right; specialize (Hp H)|left; assert (x <= 0) as H' by lra; specialize (Hn H')]; lra.
Qed.
Lemma half_turn d : - (2 * PI) < d < 2 * PI ->
  let r := fmod (2 * d) (2 * PI) - d in - PI <= r <= PI /\ congruent r d.
Proof.
  intros Hd. pose proof PI_RGT_0 as Hpi. assert (0 < 2 * PI) as H2 by lra.
  assert (forall r (k : Z), 2 * d = r + 2 * PI * IZR k -> (0 <= 2 * d /\ 0 <= r < 2 * PI \/ 2 * d <= 0 /\ - (2 * PI) < r <= 0) ->
     fmod (2 * d) (2 * PI) = r) as U by (intros; eapply fmod_unique; eauto).
  destruct (Rle_dec 0 d) as [H0|H0].
  - destruct (Rlt_dec d PI) as [H1|H1].
    + rewrite (U (2 * d) 0%Z) by (simpl; lra). simpl. split; [lra|]. exists 0%Z. simpl. lra.
    + rewrite (U (2 * d - 2 * PI) 1%Z) by (simpl; lra). simpl. split; [lra|]. exists (-1)%Z. simpl. lra.
  - destruct (Rlt_dec (- PI) d) as [H1|H1].
    + rewrite (U (2 * d) 0%Z) by (simpl; lra). simpl. split; [lra|]. exists 0%Z. simpl. lra.
    + rewrite (U (2 * d + 2 * PI) (-1)%Z) by (simpl; lra). simpl. split; [lra|]. exists 1%Z. simpl. lra.
Qed.
Theorem C55_angleDifference (a b : R) :
  let d := angleDifference a b in
  - PI <= d <= PI /\ congruent d (a - b) /\ (forall d', congruent d' (a - b) -> Rabs d <= Rabs d') /\ angleDifference b a = - d.
Proof.
  pose proof PI_RGT_0 as Hpi. assert (0 < 2 * PI) as H2 by lra. unfold angleDifference.
  destruct (fmod_spec (a - b) (2 * PI) H2) as ((k & Hk) & Hp & Hn). set (f := fmod (a - b) (2 * PI)) in *.
  assert (- (2 * PI) < f < 2 * PI) as Hf.
  { destruct (Rle_dec 0 (a - b)) as [H|H]; [specialize (Hp H)|assert (a - b <= 0) as H' by lra; specialize (Hn H')]; lra. }
  destruct (half_turn f Hf) as [R1 R2]. cbv zeta in *.
  assert (congruent (fmod (2 * f) (2 * PI) - f) (a - b)) as Hc.
  { apply (congruent_trans _ f); auto. exists (- k)%Z. rewrite opp_IZR. lra. }
  split; [exact R1|]. split; [exact Hc|]. split.
  - intros d' Hd. set (d := fmod (2 * f) (2 * PI) - f) in *.
    destruct (congruent_trans _ _ _ Hd (congruent_sym _ _ Hc)) as [l Hl].
    assert (Rabs d <= PI) as Hd1 by (apply Rabs_le; lra).
    destruct (Z.eq_dec l 0) as [->|Hl0]; [simpl in Hl; rewrite Hl; right; f_equal; lra|].
    assert (Rabs (IZR l * (2 * PI)) <= Rabs d + Rabs d') as T.
    { replace (IZR l * (2 * PI)) with (- d + d') by lra. eapply Rle_trans; [apply Rabs_triang|]. rewrite Rabs_Ropp. lra. }
    rewrite Rabs_mult, (Rabs_pos_eq (2 * PI)) in T by lra.
    assert (1 <= Rabs (IZR l)) as L. { rewrite <- abs_IZR. apply (IZR_le 1). lia. }
    assert (1 * (2 * PI) <= Rabs (IZR l) * (2 * PI)) by (apply Rmult_le_compat_r; lra). lra.
  - replace (b - a) with (- (a - b)) by lra. rewrite (fmod_opp (a - b)) by exact H2. fold f.
    replace (2 * - f) with (- (2 * f)) by lra. rewrite fmod_opp by exact H2. lra.
Qed.
Theorem C55_vector (a b : list R) : length a = length b ->
  exists d, angleDifferences a b = Ok d /\ length d = length a /\ forall i, (i < length a)%nat -> nth i d 0 = angleDifference (nth i a 0) (nth i b 0).
Proof.
  revert b. induction a as [|x a IH]; intros [|y b]; simpl; try discriminate; intros H.
  - eexists; split; [reflexivity|]. split; [reflexivity|]. intros; lia.
  - destruct (IH b) as (d & -> & L & D); [lia|]. simpl. eexists; split; [reflexivity|]. simpl. split; [lia|].
    intros [|i] Hi; auto. apply D. lia.
Qed.
(** the example of the header: 0.9 pi and -0.9 pi differ by -0.2 pi *)
Example C55_nonvacuous : angleDifference (9 / 10 * PI) (- (9 / 10 * PI)) = - (2 / 10 * PI).
Proof.
  pose proof PI_RGT_0. unfold angleDifference.
  rewrite (fmod_unique (9 / 10 * PI - - (9 / 10 * PI)) (2 * PI) (18 / 10 * PI) 0) by (simpl; lra).
  rewrite (fmod_unique (2 * (18 / 10 * PI)) (2 * PI) (16 / 10 * PI) 1) by (simpl; lra). lra.
Qed.

(** ** C56 *)
Lemma congruent_of_sincos a b : sin a = sin b -> cos a = cos b -> congruent a b.
Proof.
  intros Hs Hc. destruct (C53_constrainAngle (a - b)) as (d & _ & _ & Hr & Hd & _).
  assert (cos d = 1) as H1.
  { rewrite (congruent_cos _ _ Hd), cos_minus, Hs, Hc. pose proof (sin2_cos2 b). unfold Rsqr in *. lra. }
  assert (d = 0) as ->.
  { replace d with (2 * (d / 2)) in H1 by lra. rewrite cos_2a_sin in H1.
    assert (sin (d / 2) = 0) as H0 by (destruct (Rmult_integral (sin (d / 2)) (sin (d / 2))); lra).
    pose proof PI_RGT_0. destruct (Rtotal_order d 0) as [L|[L|L]]; auto; exfalso.
    - pose proof (sin_lt_0_var (d / 2)). lra.
    - pose proof (sin_gt_0 (d / 2)). lra. }
  apply congruent_sym in Hd. destruct Hd as [k Hk]. exists k. lra.
Qed.

Lemma sqrt_scaled x y : x <> 0 -> sqrt (x * x + y * y) = Rabs x * sqrt (1 + (y / x)²).
Proof.
  intros H. rewrite <- sqrt_Rsqr_abs, <- sqrt_mult_alt by apply Rle_0_sqr. f_equal. unfold Rsqr. field. exact H.
Qed.
(** the angle of the vector (x, y) *)
Lemma atan2_spec x y : let r := sqrt (x * x + y * y) in
  x = r * cos (atan2 y x) /\ y = r * sin (atan2 y x) /\ - PI < atan2 y x <= PI.
Proof.
  cbv zeta. pose proof PI_RGT_0 as Hpi. unfold atan2.
  assert (forall t, 0 < sqrt (1 + t²)) as Hs. { intros t. apply sqrt_lt_R0. pose proof (Rle_0_sqr t). lra. }
  assert (forall t, let s := sqrt (1 + t²) in s <> 0) as Hn. { intros t. specialize (Hs t). cbv zeta. lra. }
  destruct (Rlt_dec 0 x) as [H|H].
  - rewrite sqrt_scaled, cos_atan, sin_atan, Rabs_pos_eq by lra. specialize (Hn (y / x)). cbv zeta in Hn.
    split; [field; exact Hn|]. split; [field; split; first [exact Hn|lra]|]. destruct (atan_bound (y / x)). lra.
  - destruct (Rlt_dec x 0) as [H'|H'].
    + rewrite sqrt_scaled, Rabs_left by lra. specialize (Hn (y / x)). cbv zeta in Hn.
      destruct (atan_bound (y / x)) as [A B].
      destruct (Rlt_dec y 0) as [Hy|Hy].
      * assert (0 < y / x) as Q. { replace (y / x) with (- y * / - x) by (field; lra). apply Rmult_lt_0_compat; [lra|apply Rinv_0_lt_compat; lra]. }
        assert (0 < atan (y / x)) as Q'. { rewrite <- atan_0. apply atan_increasing. exact Q. }
        replace (atan (y / x) - PI) with (- (PI - atan (y / x))) by lra.
        rewrite cos_neg, sin_antisym, sin_PI_x, Rtrigo_facts.cos_pi_minus, cos_atan, sin_atan.
        split; [field; exact Hn|]. split; [field; split; first [exact Hn|lra]|]. lra.
      * assert (y / x <= 0) as Q. { replace (y / x) with (- (y * / - x)) by (field; lra). assert (0 <= y * / - x); [|lra]. apply Rmult_le_pos; [lra|left; apply Rinv_0_lt_compat; lra]. }
        assert (atan (y / x) <= 0) as Q'. { destruct Q as [Q|Q]; [left; rewrite <- atan_0; apply atan_increasing; exact Q|rewrite Q, atan_0; lra]. }
        rewrite neg_cos, neg_sin, cos_atan, sin_atan.
        split; [field; exact Hn|]. split; [field; split; first [exact Hn|lra]|]. lra.
    + assert (x = 0) as -> by lra. replace (0 * 0 + y * y) with (y²) by (unfold Rsqr; lra). rewrite sqrt_Rsqr_abs.
      destruct (Rlt_dec 0 y).
      * rewrite cos_PI2, sin_PI2, Rabs_pos_eq by lra. lra.
      * destruct (Rlt_dec y 0).
        -- rewrite cos_neg, sin_antisym, cos_PI2, sin_PI2, Rabs_left by lra. lra.
        -- assert (y = 0) as -> by lra. rewrite Rabs_R0. lra.
Qed.
Lemma atan2_congruent x y r t : 0 < r -> x = r * cos t -> y = r * sin t -> congruent (atan2 y x) t.
Proof.
  intros Hr Hx Hy. destruct (atan2_spec x y) as (H1 & H2 & _). set (a := atan2 y x) in *.
  assert (sqrt (x * x + y * y) = r) as Hs.
  { replace (x * x + y * y) with (r²); [apply sqrt_Rsqr; lra|]. rewrite Hx, Hy. pose proof (sin2_cos2 t) as E. unfold Rsqr in *.
    transitivity (r * r * (sin t * sin t + cos t * cos t)); [rewrite E; lra|ring]. }
  rewrite Hs in H1, H2. apply congruent_of_sincos; apply (Rmult_eq_reg_l r); lra.
Qed.
Lemma atan2_scale c x y : 0 < c -> atan2 (c * y) (c * x) = atan2 y x.
Proof.
  intros Hc. unfold atan2.
  assert (forall z, 0 < c * z <-> 0 < z) as E1.
  { intros z; split; intros; [apply (Rmult_lt_reg_l c); lra|apply Rmult_lt_0_compat; lra]. }
  assert (forall z, c * z < 0 <-> z < 0) as E2.
  { intros z. specialize (E1 (- z)). lra. }
  pose proof (E1 x). pose proof (E2 x). pose proof (E1 y). pose proof (E2 y).
  destruct (Rlt_dec 0 x), (Rlt_dec 0 (c * x)); try tauto;
  destruct (Rlt_dec x 0), (Rlt_dec (c * x) 0); try tauto; try (f_equal; field; lra);
  destruct (Rlt_dec y 0), (Rlt_dec (c * y) 0); try tauto; try (f_equal; f_equal; field; lra);
  destruct (Rlt_dec 0 y), (Rlt_dec 0 (c * y)); tauto.
Qed.

(** the weighted sum of cosines that a circular mean maximises (a separate definition: by recursion
    on the list of weight/angle pairs) *)
Fixpoint cos_score (wt : list (R * R)) (x : R) : R :=
  match wt with
  | [] => 0
  | (w, t) :: wt' => w * cos (t - x) + cos_score wt' x
  end.
Fixpoint total (w : list R) : R := match w with [] => 0 | a :: w' => a + total w' end.

Lemma cos_score_wsum w th x : length w = length th ->
  cos_score (combine w th) x = wsum w (map cos th) * cos x + wsum w (map sin th) * sin x.
Proof.
  revert th. induction w as [|a w IH]; intros [|t th]; simpl; try discriminate; intros H; [lra|].
  rewrite IH by lia. rewrite cos_minus. ring.
Qed.
Lemma wsum_const w c : wsum w (repeat c (length w)) = total w * c.
Proof. induction w as [|a w IH]; simpl; [lra|]. rewrite IH. ring. Qed.
Lemma map_repeat' (f : R -> R) c n : map f (repeat c n) = repeat (f c) n.
Proof. induction n; simpl; congruence. Qed.
Lemma wsum_scale c w v : wsum (map (Rmult c) w) v = c * wsum w v.
Proof. revert v. induction w as [|a w IH]; intros [|b v]; simpl; try lra. rewrite IH. ring. Qed.

Theorem C56_total (w th : list R) : length w = length th -> exists m, weightedAngleSum w th = Ok m /\ - PI < m <= PI.
Proof.
  intros H. unfold weightedAngleSum. rewrite (proj2 (Nat.eqb_eq _ _) H). eexists; split; [reflexivity|].
  apply atan2_spec.
Qed.
Theorem C56_equal_angles (w : list R) (t m : R) : 0 < total w ->
  weightedAngleSum w (repeat t (length w)) = Ok m -> congruent m t.
Proof.
  intros Hw. unfold weightedAngleSum. rewrite repeat_length, Nat.eqb_refl. intros [= <-].
  rewrite !map_repeat', !wsum_const. eapply atan2_congruent; [exact Hw|reflexivity|reflexivity].
Qed.
Theorem C56_full_turns (w th th' : list R) : Forall2 congruent th th' -> weightedAngleSum w th = weightedAngleSum w th'.
Proof.
  intros H. unfold weightedAngleSum.
  assert (length th = length th' /\ map sin th = map sin th' /\ map cos th = map cos th') as (-> & -> & ->); [|reflexivity].
  induction H as [|a b th th' Hab _ (I1 & I2 & I3)]; simpl; auto.
  rewrite I1, I2, I3, (congruent_sin _ _ Hab), (congruent_cos _ _ Hab). auto.
Qed.
Theorem C56_scaled_weights (c : R) (w th : list R) : 0 < c ->
  weightedAngleSum (map (Rmult c) w) th = weightedAngleSum w th.
Proof.
  intros Hc. unfold weightedAngleSum. rewrite map_length, !wsum_scale, atan2_scale by exact Hc. reflexivity.
Qed.
(** the result is a global maximum of the weighted sum of cosines, for all weights of any sign *)
Theorem C56_maximises (w th : list R) (m : R) : weightedAngleSum w th = Ok m ->
  forall x, cos_score (combine w th) x <= cos_score (combine w th) m.
Proof.
  unfold weightedAngleSum. destruct (Nat.eqb_spec (length w) (length th)) as [H|]; [|discriminate]. intros [= <-] x.
  rewrite !cos_score_wsum by exact H. set (X := wsum w (map cos th)). set (Y := wsum w (map sin th)).
  destruct (atan2_spec X Y) as (H1 & H2 & _). set (a := atan2 Y X) in *. set (r := sqrt (X * X + Y * Y)) in *.
  assert (0 <= r) as Hr by apply sqrt_pos.
  replace (X * cos x + Y * sin x) with (r * cos (a - x)) by (rewrite cos_minus, H1, H2; ring).
  replace (X * cos a + Y * sin a) with (r * 1).
  - apply Rmult_le_compat_l; [exact Hr|]. apply COS_bound.
  - pose proof (sin2_cos2 a) as E. unfold Rsqr in E. rewrite H1, H2 at 1.
    transitivity (r * (sin a * sin a + cos a * cos a)); [rewrite E; ring|ring].
Qed.
(** with a non-zero resultant the maximum is unique up to full turns, so the mean rotates with the angles *)
Theorem C56_unique_maximum (w th : list R) (m x : R) : weightedAngleSum w th = Ok m ->
  (exists z, 0 < cos_score (combine w th) z) ->
  (forall z, cos_score (combine w th) z <= cos_score (combine w th) x) -> congruent m x.
Proof.
  intros Hm [z Hz] Hx. assert (length w = length th) as H.
  { revert Hm. unfold weightedAngleSum. destruct (Nat.eqb_spec (length w) (length th)); [auto|discriminate]. }
  assert (cos_score (combine w th) m = cos_score (combine w th) x) as E.
  { apply Rle_antisym; [apply Hx|apply (C56_maximises _ _ _ Hm)]. }
  assert (0 < cos_score (combine w th) m) as Hp. { eapply Rlt_le_trans; [exact Hz|]. apply (C56_maximises _ _ _ Hm). }
  revert Hm. unfold weightedAngleSum. rewrite (proj2 (Nat.eqb_eq _ _) H). intros [= Hm].
  rewrite !cos_score_wsum in * by exact H. set (X := wsum w (map cos th)) in *. set (Y := wsum w (map sin th)) in *.
  destruct (atan2_spec X Y) as (H1 & H2 & _). rewrite Hm in *. set (r := sqrt (X * X + Y * Y)) in *.
  assert (0 <= r) as Hr by apply sqrt_pos.
  assert (forall y, X * cos y + Y * sin y = r * cos (m - y)) as F by (intros y; rewrite cos_minus, H1, H2; ring).
  rewrite !F in *. replace (m - m) with 0 in * by lra. rewrite cos_0 in *.
  assert (cos (m - x) = 1) as C by (apply (Rmult_eq_reg_l r); lra).
  assert (congruent (m - x) 0) as K.
  { apply congruent_of_sincos; rewrite ?sin_0, ?cos_0; auto.
    pose proof (sin2_cos2 (m - x)) as S. unfold Rsqr in S. rewrite C in S.
    destruct (Rmult_integral (sin (m - x)) (sin (m - x))); lra. }
  destruct K as [k K]. exists k. lra.
Qed.
Theorem C56_common_offset (w th : list R) (d m m' : R) :
  (exists z, 0 < cos_score (combine w th) z) ->
  weightedAngleSum w th = Ok m -> weightedAngleSum w (map (Rplus d) th) = Ok m' -> congruent m' (m + d).
Proof.
  intros [z Hz] Hm Hm'.
  assert (forall x, cos_score (combine w (map (Rplus d) th)) (x + d) = cos_score (combine w th) x) as E.
  { intros x. clear. revert th. induction w as [|a w IH]; intros [|t th]; simpl; auto. rewrite IH. f_equal. f_equal. f_equal. lra. }
  apply (C56_unique_maximum _ _ _ _ Hm').
  - exists (z + d). rewrite E. exact Hz.
  - intros x. replace x with ((x - d) + d) by lra. rewrite !E. apply (C56_maximises _ _ _ Hm).
Qed.
(** a sigma-point like set: negative central weight, angles on both sides of the +-pi seam *)
Example C56_nonvacuous : let w := [-1; 2; 2] in let th := [PI; PI - PI / 3; - PI + PI / 3] in
   exists m, weightedAngleSum w th = Ok m /\ 0 < cos_score (combine w th) PI /\ 0 < total w.
Proof.
  cbv zeta. eexists. split; [reflexivity|]. split; [|simpl; lra]. simpl. replace (PI - PI) with 0 by lra. rewrite cos_0.
  replace (PI - PI / 3 - PI) with (- (PI / 3)) by lra. rewrite cos_neg, cos_PI3.
  rewrite (congruent_cos (- PI + PI / 3 - PI) (PI / 3)) by (exists (-1)%Z; simpl; lra). rewrite cos_PI3. lra.
Qed.

(** ** C57 *)
(** the heading is entry 6 of the state vector: planar_2d_motion.h:15-24 *)
Definition heading : nat := 6.
Theorem C57_add (a b : p2_state) : exists s, p2_addState a b = Ok s
  /\ - PI <= s heading <= PI /\ congruent (s heading) (a heading + b heading)
  /\ (forall i, i <> heading -> s i = a i + b i).
Proof.
  change heading with p2_PSI.
  unfold p2_addState. destruct (C53_constrainAngle (a p2_PSI + b p2_PSI)) as (h & -> & _ & Hr & Hc & _). simpl.
  eexists. split; [reflexivity|]. unfold p2_set. rewrite Nat.eqb_refl. split; [exact Hr|]. split; [exact Hc|].
  intros i Hi. apply Nat.eqb_neq in Hi. rewrite Hi. reflexivity.
Qed.
Theorem C57_sub (a b : p2_state) : let s := p2_subtractState a b in
  - PI <= s heading <= PI /\ congruent (s heading) (a heading - b heading)
  /\ (forall i, i <> heading -> s i = a i - b i).
Proof.
  change heading with p2_PSI.
  cbv zeta. unfold p2_subtractState, p2_set. rewrite Nat.eqb_refl.
  destruct (C55_angleDifference (a p2_PSI) (b p2_PSI)) as (Hr & Hc & _). split; [exact Hr|]. split; [exact Hc|].
  intros i Hi. apply Nat.eqb_neq in Hi. rewrite Hi. reflexivity.
Qed.
Theorem C57_inverse (a b : p2_state) : exists s, p2_addState (p2_subtractState a b) b = Ok s
  /\ congruent (s heading) (a heading) /\ (forall i, i <> heading -> s i = a i)
  /\ (- PI < a heading < PI -> forall i, s i = a i).
Proof.
  change heading with p2_PSI.
  destruct (C57_add (p2_subtractState a b) b) as (s & Hs & Hr & Hc & Hi). destruct (C57_sub a b) as (_ & Sc & Si). change heading with p2_PSI in *.
  assert (congruent (s p2_PSI) (a p2_PSI)) as Hcc.
  { apply (congruent_trans _ _ _ Hc). destruct Sc as [k Hk]. exists k. lra. }
  assert (forall i, i <> p2_PSI -> s i = a i) as Hl. { intros i H. rewrite Hi, Si by exact H. lra. }
  exists s. split; [exact Hs|]. split; [exact Hcc|]. split; [exact Hl|]. intros Ha i.
  destruct (Nat.eq_dec i p2_PSI) as [->|H]; [|auto].
  destruct Hcc as [k Hk]. pose proof PI_RGT_0. assert (-1 < IZR k < 1) as [A B]. { split; apply (Rmult_lt_reg_r (2 * PI)); lra. }
  apply lt_IZR in A. apply lt_IZR in B. assert (k = 0%Z) as -> by lia. simpl in Hk. lra.
Qed.
Theorem C57_inverse' (a b : p2_state) : exists s, p2_addState b a = Ok s
  /\ congruent (p2_subtractState s b heading) (a heading) /\ (forall i, i <> heading -> p2_subtractState s b i = a i).
Proof.
  change heading with p2_PSI.
  destruct (C57_add b a) as (s & Hs & Hr & Hc & Hi). destruct (C57_sub s b) as (_ & Sc & Si). change heading with p2_PSI in *.
  exists s. split; [exact Hs|]. split.
  - apply (congruent_trans _ _ _ Sc). destruct Hc as [k Hk]. exists k. lra.
  - intros i H. rewrite Si, Hi by exact H. lra.
Qed.
(** the weighted sum: linear in every component but the heading, which is the circular mean *)
Theorem C57_weighted_sum (w : list R) (X : list p2_state) : length w = length X ->
  exists s, p2_weightedSumOfStates w X = Ok s /\ weightedAngleSum w (map (fun x => x heading) X) = Ok (s heading)
  /\ - PI < s heading <= PI
  /\ (forall h, cos_score (combine w (map (fun x => x heading) X)) h <= cos_score (combine w (map (fun x => x heading) X)) (s heading))
  /\ (forall i, i <> heading -> s i = wsum w (map (fun x => x i) X)).
Proof.
  change heading with p2_PSI.
  intros H. unfold p2_weightedSumOfStates. rewrite (proj2 (Nat.eqb_eq _ _) H).
  destruct (C56_total w (map (fun x => x p2_PSI) X)) as (m & Em & Hm); [rewrite map_length; exact H|]. rewrite Em. cbn [obind].
  eexists. split; [reflexivity|]. unfold p2_set. rewrite Nat.eqb_refl. split; [reflexivity|]. split; [exact Hm|].
  split; [apply (C56_maximises _ _ _ Em)|]. intros i Hi. apply Nat.eqb_neq in Hi. rewrite Hi. clear Em Hm Hi.
  assert (forall (acc : p2_state), fold_left (fun (acc : p2_state) (wx : R * p2_state) => fun i => acc i + fst wx * snd wx i) (combine w X) acc i
    = acc i + wsum w (map (fun x : p2_state => x i) X)) as E; [|etransitivity; [apply E|apply Rplus_0_l]].
  revert X H. induction w as [|a w IH]; intros [|x X]; simpl; try discriminate; intros H acc; [lra|].
  rewrite IH by lia. simpl. lra.
Qed.
Example C57_nonvacuous : exists s, p2_addState (p2_set (fun _ => 1) heading (3 * PI / 4)) (p2_set (fun _ => 2) heading (3 * PI / 4)) = Ok s
   /\ s heading = - (PI / 2) /\ s O = 3.
Proof.
  change heading with p2_PSI.
  destruct (C57_add (p2_set (fun _ => 1) p2_PSI (3 * PI / 4)) (p2_set (fun _ => 2) p2_PSI (3 * PI / 4))) as (s & Hs & Hr & [k Hk] & Hi). change heading with p2_PSI in *.
  exists s. split; [exact Hs|]. split.
  - unfold p2_set in Hk. rewrite Nat.eqb_refl in Hk. pose proof PI_RGT_0. assert (-2 < IZR k < 0) as [A B].
    { split; apply (Rmult_lt_reg_r (2 * PI)); lra. }
    apply lt_IZR in A. apply lt_IZR in B. assert (k = -1)%Z as -> by lia. lra.
  - rewrite Hi by discriminate. unfold p2_set. simpl. lra.
Qed.
