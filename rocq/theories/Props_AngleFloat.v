(** C54: constrainAngle on doubles. *)
From Coq Require Import ZArith Reals Lra Lia Bool.
From Flocq Require Import Core IEEE754.BinarySingleNaN Sterbenz.
From Verif Require Import Outcome FB_Model FloatTime Angles Props_Angles AngleFloat.
Open Scope R_scope.

Definition C54_claim : Prop := forall a : f64, finite a = true -> exists b, constrainAngle64 a b.

Lemma gt_pi a : finite a = true -> Bltb m_pi a = Rlt_bool vpi (val a).
Proof. intros. apply (flt_val m_pi a); auto. Qed.
Lemma lt_mpi a : finite a = true -> Bltb a (Bopp m_pi) = Rlt_bool (val a) (- vpi).
Proof. intros. rewrite <- (B2R_Bopp 53 1024 m_pi). apply (flt_val a (Bopp m_pi)); auto. Qed.

Lemma down64 n a : finite a = true -> val a <= vpi + 2 * INR n -> val a <= bpow radix2 56 ->
  exists b, while (S n) (fun x => Bltb m_pi x) (fun x => fsub64 x two_m_pi) a = Some b
   /\ finite b = true /\ val b <= vpi /\ (vpi < val a -> - vpi <= val b) /\ (val a <= vpi -> b = a).
Proof.
  revert a. induction n as [|n IH]; intros a Fa H1 H2.
  - change (INR 0) with 0 in H1. exists a. cbn [while]. rewrite gt_pi, Rlt_bool_false by (auto; lra).
    split; [reflexivity|]. split; [auto|]. split; [lra|]. split; [lra|auto].
  - rewrite S_INR in H1. destruct (Rlt_dec vpi (val a)) as [H|H].
    + destruct (sub_step a Fa H H2) as (Fs & S1 & S2).
      destruct (IH (fsub64 a two_m_pi)) as (b & Hb & Fb & B1 & B2 & B3); [auto|lra|lra|].
      exists b. split.
      * change (while (S (S n)) (fun x => Bltb m_pi x) (fun x => fsub64 x two_m_pi) a)
          with (if Bltb m_pi a then while (S n) (fun x => Bltb m_pi x) (fun x => fsub64 x two_m_pi) (fsub64 a two_m_pi) else Some a).
        rewrite gt_pi, Rlt_bool_true by auto. exact Hb.
      * split; [auto|]. split; [auto|]. split; [|lra]. intros _.
        destruct (Rlt_dec vpi (val (fsub64 a two_m_pi))); auto. rewrite B3; lra.
    + exists a. cbn [while]. rewrite gt_pi, Rlt_bool_false by (auto; lra).
      split; [reflexivity|]. split; [auto|]. split; [lra|]. split; [lra|auto].
Qed.
Lemma up64 n a : finite a = true -> - vpi - 2 * INR n <= val a -> - bpow radix2 56 <= val a ->
  exists b, while (S n) (fun x => Bltb x (Bopp m_pi)) (fun x => fadd64 x two_m_pi) a = Some b
   /\ finite b = true /\ - vpi <= val b /\ (val a < - vpi -> val b <= vpi) /\ (- vpi <= val a -> b = a).
Proof.
  revert a. induction n as [|n IH]; intros a Fa H1 H2.
  - change (INR 0) with 0 in H1. exists a. cbn [while]. rewrite lt_mpi, Rlt_bool_false by (auto; lra).
    split; [reflexivity|]. split; [auto|]. split; [lra|]. split; [lra|auto].
  - rewrite S_INR in H1. destruct (Rlt_dec (val a) (- vpi)) as [H|H].
    + destruct (add_step a Fa H H2) as (Fs & S1 & S2).
      destruct (IH (fadd64 a two_m_pi)) as (b & Hb & Fb & B1 & B2 & B3); [auto|lra|lra|].
      exists b. split.
      * change (while (S (S n)) (fun x => Bltb x (Bopp m_pi)) (fun x => fadd64 x two_m_pi) a)
          with (if Bltb a (Bopp m_pi) then while (S n) (fun x => Bltb x (Bopp m_pi)) (fun x => fadd64 x two_m_pi) (fadd64 a two_m_pi) else Some a).
        rewrite lt_mpi, Rlt_bool_true by auto. exact Hb.
      * split; [auto|]. split; [auto|]. split; [|lra]. intros _.
        destruct (Rlt_dec (val (fadd64 a two_m_pi)) (- vpi)); auto. rewrite B3; lra.
    + exists a. cbn [while]. rewrite lt_mpi, Rlt_bool_false by (auto; lra).
      split; [reflexivity|]. split; [auto|]. split; [lra|]. split; [lra|auto].
Qed.
Lemma steps_exist x : exists n, x <= 2 * INR n.
Proof.
  destruct (archimed (Rabs x)) as [H _]. exists (Z.to_nat (up (Rabs x))). pose proof (Rle_abs x). pose proof (Rabs_pos x).
  assert (0 <= up (Rabs x))%Z by (apply le_IZR; lra). rewrite INR_IZR_INZ, Z2Nat.id by auto. lra.
Qed.

(** up to 2^56 the call returns, in range, and keeps angles that are in range *)
Theorem C54_in_range_partial (a : f64) : finite a = true -> Rabs (val a) <= bpow radix2 56 ->
  exists b, constrainAngle64 a b /\ finite b = true /\ - vpi <= val b <= vpi /\ (- vpi <= val a <= vpi -> b = a).
Proof.
  intros Fa Ha. apply Rabs_le_inv in Ha. pose proof vpi_bounds as Hp.
  destruct (steps_exist (val a - vpi)) as [n Hn]. destruct (down64 n a) as (c & Hc & Fc & C1 & C2 & C3); [auto|lra|lra|].
  assert (- bpow radix2 56 <= val c) as C4.
  { destruct (Rlt_dec vpi (val a)) as [H|H]; [specialize (C2 H)|rewrite C3; lra].
    assert (bpow radix2 2 <= bpow radix2 56) by (apply bpow_le; lia). change (bpow radix2 2) with 4 in *. lra. }
  destruct (steps_exist (- vpi - val c)) as [k Hk]. destruct (up64 k c) as (b & Hb & Fb & B1 & B2 & B3); [auto|lra|lra|].
  exists b. split; [|split; [auto|split]].
  - exists c. split; eexists; eassumption.
  - split; [auto|]. destruct (Rlt_dec (val c) (- vpi)); auto. rewrite B3; lra.
  - intros H. rewrite B3, C3; auto; try lra. rewrite C3; lra.
Qed.

Lemma loop_forever {A} (cond : A -> bool) (step : A -> A) (a : A) n : cond a = true -> step a = a -> while n cond step a = None.
Proof. intros Hc Hs. induction n; simpl; auto. rewrite Hc, Hs. auto. Qed.

(** above, and for infinities, it never returns *)
Theorem C54_diverges (a : f64) : finite a = true -> bpow radix2 56 < Rabs (val a) -> ~ exists b, constrainAngle64 a b.
Proof.
  intros Fa Ha (b & c & (n & Hn) & (k & Hk)). pose proof vpi_bounds as Hp.
  assert (bpow radix2 2 <= bpow radix2 56) as H4 by (apply bpow_le; lia). change (bpow radix2 2) with 4 in *.
  destruct (Rlt_dec 0 (val a)) as [H|H].
  - rewrite Rabs_pos_eq in Ha by lra. rewrite loop_forever in Hn; [discriminate| |].
    + rewrite gt_pi, Rlt_bool_true by (auto; lra). reflexivity.
    + apply sub_stuck; auto.
  - rewrite Rabs_left1 in Ha by lra.
    assert (c = a) as ->.
    { destruct n; cbn [while] in Hn; [discriminate|]. rewrite gt_pi, Rlt_bool_false in Hn by (auto; lra). congruence. }
    rewrite loop_forever in Hk; [discriminate| |].
    + rewrite lt_mpi, Rlt_bool_true by (auto; lra). reflexivity.
    + apply add_stuck; auto. lra.
Qed.
(** exactly when the call returns, for every double *)
Theorem C54_terminates_iff_partial (a : f64) :
  (exists b, constrainAngle64 a b) <-> is_nan a = true \/ (finite a = true /\ Rabs (val a) <= bpow radix2 56).
Proof.
  destruct (finite a) eqn:Fa.
  - split.
    + intros H. right. split; [reflexivity|]. destruct (Rle_dec (Rabs (val a)) (bpow radix2 56)); auto. exfalso.
      apply (C54_diverges a Fa); auto. lra.
    + intros [H|[_ H]]; [destruct a; discriminate|]. destruct (C54_in_range_partial a Fa H) as (b & Hb & _). eauto.
  - split.
    + intros (b & c & (n & Hn) & (k & Hk)). left. destruct a as [|[]| |]; try discriminate; auto; exfalso.
      * destruct n; cbn [while] in Hn; [discriminate|]. injection Hn as <-. rewrite loop_forever in Hk; [discriminate| |]; vm_compute; reflexivity.
      * rewrite loop_forever in Hn; [discriminate| |]; vm_compute; reflexivity.
    + intros [H|[H _]]; [|discriminate]. destruct a; try discriminate. exists B754_nan, B754_nan. split; exists 1%nat; vm_compute; reflexivity.
Qed.
Theorem C54_refuted : ~ C54_claim.
Proof.
  intros H. pose (a := @B754_finite 53 1024 false 4503599627370496 10 eq_refl : f64).
  apply (C54_diverges a); [reflexivity| |apply H; reflexivity].
  assert (val a = bpow radix2 62) as ->.
  { unfold a, B2R, F2R. cbn [Fnum Fexp]. change (IZR (cond_Zopp false 4503599627370496)) with (bpow radix2 52). rewrite <- bpow_plus. reflexivity. }
  rewrite Rabs_pos_eq by apply bpow_ge_0. apply bpow_lt. lia.
Qed.
(** one turn is removed exactly: for angles up to three half turns there is no rounding *)
Theorem C54_one_turn_exact (a : f64) : finite a = true -> vpi < val a <= 3 * vpi ->
  exists b, constrainAngle64 a b /\ val b = val a - 2 * vpi.
Proof.
  intros Fa Ha. pose proof vpi_bounds as Hp. destruct v2pi as (E & F2).
  assert (4 * 4 <= bpow radix2 56) as H4. { replace (4 * 4) with (bpow radix2 4) by (change (bpow radix2 4) with 16; lra). apply bpow_le; lia. }
  assert (val (fsub64 a two_m_pi) = val a - 2 * vpi /\ finite (fsub64 a two_m_pi) = true) as (V & F).
  { destruct (fsub_cases a two_m_pi Fa F2) as [(Fs & Vs)|(_ & _ & Hc)].
    - split; auto. rewrite Vs, E. apply rnd_id. apply sterbenz.
      + apply valid64.
      + apply (fexp_monotone 53 1024).
      + apply fmt_val.
      + rewrite <- E. apply fmt_val.
      + lra.
    - exfalso. revert Hc. apply emax_big. rewrite E. assert (bpow radix2 56 <= bpow radix2 1000) by (apply bpow_le; lia). apply Rabs_le. lra. }
  exists (fsub64 a two_m_pi). split; [|exact V]. exists (fsub64 a two_m_pi). split.
  - exists 2%nat. cbn [while]. rewrite !gt_pi, V by auto. rewrite Rlt_bool_true, Rlt_bool_false by lra. reflexivity.
  - exists 1%nat. cbn [while]. rewrite lt_mpi, V by auto. rewrite Rlt_bool_false by lra. reflexivity.
Qed.
Example C54_nonvacuous : finite two_m_pi = true /\ vpi < val two_m_pi <= 3 * vpi /\ Rabs (val two_m_pi) <= bpow radix2 56.
Proof.
  destruct v2pi as (E & F). pose proof vpi_bounds. split; [auto|]. split; [lra|]. rewrite E, Rabs_pos_eq by lra.
  apply Rle_trans with (bpow radix2 4); [change (bpow radix2 4) with 16; lra|apply bpow_le; lia].
Qed.
