(** C102 (times): which measurements of the two files the example program examples/six_d_rates_example.cpp
    gives to the filter are refused for being too late, in IEEE binary64 arithmetic. *)
From Coq Require Import ZArith Reals Lra Lia List Bool Sorted Permutation.
From Flocq Require Import Core IEEE754.BinarySingleNaN.
From Verif Require Import Outcome FB_Model FB_Time FB_Basic FB_Single FB_Order FloatTime Csv Props_FloatTime.
From Verif Require Example6D.
Import ListNotations.

(** the time of a filter after correct() at time t *)
Definition next_time (now t : f64) : f64 :=
  if tlt (t := FTime) tzero (fsub64 t now) then fadd64 now (fsub64 t now) else now.
Fixpoint times_after (now : f64) (ts : list f64) : list f64 :=
  match ts with [] => [] | t :: r => next_time now t :: times_after (next_time now t) r end.

Lemma correct_time {E : Env FTime} (L : Lib E) (s s' : St E) z Q (t : FTime) m :
  p_rewind (par s) = false -> p_past (par s) = false -> correct L s z Q t m = Ok s' ->
  par s' = par s /\ getStateTime s' = next_time (getStateTime s) t.
Proof.
  intros Hr Hp H. unfold correct in H. rewrite Hr, Hp in H. simpl negb in H. cbv iota in H. cbn [orb] in H.
  destruct (tle tzero (tsub t (getStateTime s))) eqn:Et.
  - apply pruned_input_time in H as (Ht & Hp'). split; [exact Hp'|exact Ht].
  - injection H as <-. split; auto. unfold next_time. simpl tsub in Et.
    destruct (tlt (t := FTime) tzero (fsub64 t (getStateTime s))) eqn:Es; auto.
    apply (proj1 FTime_cmp) in Es. rewrite Es in Et. discriminate.
Qed.

(** the first time not negative, and far from overflow *)
Definition plausible (t : f64) : Prop := finite t = true /\ (0 <= val t <= bpow radix2 999)%R.
Lemma next_time_ok now t : plausible now -> (finite t = true /\ 0 <= val t <= bpow radix2 998)%R ->
  plausible (next_time now t) /\ tle (t := FTime) now (next_time now t) = true
  /\ (val now <= val t -> val (next_time now t) = rnd64 (val now + rnd64 (val t - val now)))%R
  /\ (val t < val now -> next_time now t = now)%R.
Proof.
  intros (Fn & Bn) (Ft & Bt). unfold next_time. pose proof (fsub_pos t now Ft Fn) as Hpos. simpl tsub in Hpos. rewrite Hpos. clear Hpos.
  rewrite flt_val by auto. assert (Hl9 : (bpow radix2 998 < bpow radix2 999)%R) by (apply bpow_lt; lia).
  assert (Hl0 : (bpow radix2 999 < bpow radix2 1000)%R) by (apply bpow_lt; lia).
  case Rlt_bool_spec; intros H.
  - assert (Mn : moderate now) by (split; auto; rewrite Rabs_pos_eq; lra).
    assert (Mt : moderate t) by (split; auto; rewrite Rabs_pos_eq; lra).
    destruct (fadv_finite now t Mn Mt) as (F1 & F2). simpl tsub in F1, F2. simpl tadd in F2.
    assert (V1 : val (fsub64 t now) = rnd64 (val t - val now)).
    { destruct (fsub_cases t now Ft Fn) as [(_ & V)|(C & _)]; [exact V|]. rewrite C in F1. discriminate. }
    assert (V2 : val (fadd64 now (fsub64 t now)) = rnd64 (val now + val (fsub64 t now))).
    { destruct (fadd_cases now (fsub64 t now) Fn F1) as [(_ & V)|(C & _)]; [exact V|]. rewrite C in F2. discriminate. }
    assert (Ge : tle (t := FTime) now (fadd64 now (fsub64 t now)) = true).
    { apply (fadv_ge now t); auto. rewrite fle_val by auto. apply Rle_bool_true. lra. }
    assert (R0 : (0 <= rnd64 (val t - val now) <= bpow radix2 998)%R).
    { assert (Ra : (Rabs (rnd64 (val t - val now)) <= bpow radix2 998)%R).
      { apply rnd_abs_le; [lia|]. rewrite Rabs_pos_eq; lra. }
      assert ((0 <= rnd64 (val t - val now))%R) by (rewrite <- rnd_0; apply rnd_mono; lra).
      rewrite Rabs_pos_eq in Ra by auto. auto. }
    split.
    { split; auto. rewrite V2, V1. assert (Ra : (Rabs (rnd64 (val now + rnd64 (val t - val now))) <= bpow radix2 999)%R).
      { apply rnd_abs_le; [lia|]. rewrite Rabs_pos_eq by lra. change 999%Z with (1 + 998)%Z. rewrite bpow_plus. change (bpow radix2 1) with 2%R. lra. }
      assert ((0 <= rnd64 (val now + rnd64 (val t - val now)))%R) by (rewrite <- rnd_0; apply rnd_mono; lra).
      rewrite Rabs_pos_eq in Ra by auto. auto. }
    split; auto. split; [intros _; rewrite V2, V1; reflexivity|intros C; lra].
  - split; [split; auto|]. split; [rewrite fle_val by auto; apply Rle_bool_true; lra|].
    split; [|reflexivity]. intros C. assert (E : val t = val now) by lra.
    rewrite E, Rminus_diag_eq, rnd_0, Rplus_0_r, rnd_id by (auto; apply fmt_val). reflexivity.
Qed.

(** the times of the rows never decrease *)
Lemma times_sorted ts : forall now, plausible now -> Forall (fun t => finite t = true /\ (0 <= val t <= bpow radix2 998)%R) ts ->
  StronglySorted (fun a b => tle (t := FTime) a b = true) (now :: times_after now ts) /\ Forall plausible (times_after now ts).
Proof.
  assert (Htr : forall a b c, plausible a -> plausible b -> plausible c -> tle (t := FTime) a b = true -> tle (t := FTime) b c = true -> tle (t := FTime) a c = true).
  { intros a b c (Fa & _) (Fb & _) (Fc & _). rewrite !fle_val by auto. rewrite !Rle_bool_iff. lra. }
  induction ts as [|t ts IH]; intros now Hn H; [split; [repeat constructor|constructor]|].
  inversion H as [|? ? Ht Hts]; subst. destruct (next_time_ok now t Hn Ht) as (P1 & L1 & _). cbn [times_after].
  destruct (IH _ P1 Hts) as (S1 & F1). inversion S1 as [|? ? S2 F2]; subst. split; [|constructor; auto].
  constructor; [exact S1|]. constructor; [exact L1|].
  apply Forall_forall. intros a Ha. apply (Htr now (next_time now t)); auto; [|rewrite Forall_forall in F2; auto].
  rewrite Forall_forall in F1. auto.
Qed.

(** ** Stamps in nanoseconds *)
Notation e9 := Example6D.e9.
Lemma val_e9 : finite e9 = true /\ val e9 = 1000000000%R.
Proof.
  split; [reflexivity|]. rewrite <- SF2R_B2SF. replace (B2SF e9) with (SpecFloat.S754_finite false 8388608000000000 (-23)) by (vm_compute; reflexivity).
  unfold SF2R, F2R. cbn [cond_Zopp Fnum Fexp]. change (bpow radix2 (-23)) with (/ IZR 8388608)%R. lra.
Qed.
Definition seconds (s0 s : f64) : f64 := Example6D.fdiv64 (fsub64 s s0) e9.
(** a whole number of nanoseconds *)
Definition stamp (s : f64) (z : Z) : Prop := finite s = true /\ val s = IZR z.
Definition span : Z := 2 ^ 49.    (* 6.5 days *)

Lemma rnd_err x : (Rabs x <= bpow radix2 20)%R -> (Rabs (rnd64 x - x) <= bpow radix2 (-33))%R.
Proof.
  intros Hx. eapply Rle_trans; [apply error_le_half_ulp; apply (fexp_correct 53 1024 eq_refl)|].
  assert (Hu : (ulp radix2 fexp64 x <= bpow radix2 (-32))%R).
  { rewrite <- ulp_abs. eapply Rle_trans; [apply ulp_le_pos; [apply (fexp_correct 53 1024 eq_refl)|apply fexp_monotone|apply Rabs_pos|exact Hx]|].
    rewrite ulp_bpow. apply Rle_refl. }
  change (-33)%Z with (-1 + -32)%Z. rewrite bpow_plus. change (bpow radix2 (-1)) with (/ 2)%R. lra.
Qed.
Lemma seconds_ok s0 z0 s z : stamp s0 z0 -> stamp s z -> (0 <= z - z0 <= span)%Z ->
  finite (seconds s0 s) = true /\ (0 <= val (seconds s0 s) <= 1000000)%R /\ (Rabs (val (seconds s0 s) - IZR (z - z0) / 1000000000) <= bpow radix2 (-33))%R.
Proof.
  intros (F0 & V0) (F & V) Hz. destruct val_e9 as (Fe & Ve).
  assert (Hf : fmt64 (IZR (z - z0))).
  { rewrite <- (Rmult_1_r (IZR (z - z0))). change 1%R with (bpow radix2 (-0)). apply grid_fmt; [lia|]. unfold span in Hz. lia. }
  assert (Vd : (val s - val s0)%R = IZR (z - z0)) by (rewrite V, V0, minus_IZR; reflexivity).
  assert (B0 : (0 <= IZR (z - z0) <= 562949953421312)%R).
  { split; [apply IZR_le; lia|]. apply IZR_le. unfold span in Hz. lia. }
  destruct (fsub_cases s s0 F F0) as [(Fs & Vs)|(_ & _ & C)].
  2:{ rewrite Vd, rnd_id, Rabs_pos_eq in C by (auto; lra). assert ((bpow radix2 50 < bpow radix2 1024)%R) by (apply bpow_lt; lia).
      change (bpow radix2 50) with 1125899906842624%R in H. lra. }
  rewrite Vd, rnd_id in Vs by auto.
  set (x := (IZR (z - z0) / 1000000000)%R).
  assert (Bx : (0 <= x <= 600000)%R).
  { unfold x. split; [apply Rmult_le_pos; lra|]. apply Rmult_le_reg_r with 1000000000%R; [lra|]. field_simplify; lra. }
  assert (b20 : bpow radix2 20 = 1048576%R) by reflexivity.
  assert (Err : (Rabs (rnd64 x - x) <= bpow radix2 (-33))%R) by (apply rnd_err; rewrite b20, Rabs_pos_eq; lra).
  assert (b33 : (bpow radix2 (-33) <= 1)%R) by (change 1%R with (bpow radix2 0); apply bpow_le; lia).
  assert (N0 : (0 <= rnd64 x)%R) by (rewrite <- rnd_0; apply rnd_mono; lra).
  assert (Br : (rnd64 x <= 1000000)%R) by (revert Err; unfold Rabs; destruct Rcase_abs; lra).
  pose proof (Bdiv_correct 53 1024 _ _ mode_NE (fsub64 s s0) e9) as Hd. change (Bdiv mode_NE (fsub64 s s0) e9) with (seconds s0 s) in Hd. simpl round_mode in Hd.
  rewrite Vs, Ve in Hd. fold x in Hd. specialize (Hd ltac:(lra)).
  rewrite Rlt_bool_true in Hd.
  - destruct Hd as (D1 & D2 & _). rewrite D2, Fs, D1. auto.
  - rewrite Rabs_pos_eq by auto. apply Rle_lt_trans with (bpow radix2 20); [lra|apply bpow_lt; lia].
Qed.
Lemma seconds_zero s0 z0 : stamp s0 z0 -> val (seconds s0 s0) = 0%R.
Proof.
  intros (F0 & V0). destruct val_e9 as (Fe & Ve).
  destruct (fsub_cases s0 s0 F0 F0) as [(Fs & Vs)|(_ & _ & C)].
  2:{ rewrite Rminus_diag_eq, rnd_0, Rabs_R0 in C by auto. pose proof (bpow_gt_0 radix2 1024). lra. }
  rewrite Rminus_diag_eq, rnd_0 in Vs by auto.
  pose proof (Bdiv_correct 53 1024 _ _ mode_NE (fsub64 s0 s0) e9) as Hd. change (Bdiv mode_NE (fsub64 s0 s0) e9) with (seconds s0 s0) in Hd. simpl round_mode in Hd.
  rewrite Vs, Ve in Hd. specialize (Hd ltac:(lra)). unfold Rdiv in Hd. rewrite Rmult_0_l, rnd_0, Rabs_R0 in Hd.
  rewrite Rlt_bool_true in Hd by apply bpow_gt_0. apply Hd.
Qed.

Lemma fdiv_finite (a b : f64) : finite b = true -> val b <> 0%R -> finite (Example6D.fdiv64 a b) = true -> finite a = true.
Proof. destruct a as [s|[]| |s m e h], b as [s'|[]| |s' m' e' h']; simpl; intros; auto; try discriminate; try congruence; try lra. Qed.
Lemma fsub_finite (a b : f64) : finite (fsub64 a b) = true -> finite a = true /\ finite b = true.
Proof. destruct a as [[]|[]| |[] m e h], b as [[]|[]| |[] m' e' h']; simpl; intros; auto; try discriminate. Qed.
Lemma seconds_fin s0 s : finite (seconds s0 s) = true -> finite s = true /\ finite s0 = true /\ finite (fsub64 s s0) = true.
Proof.
  intros H. destruct val_e9 as (Fe & Ve). assert (Hs : finite (fsub64 s s0) = true) by (apply (fdiv_finite _ e9 Fe); [rewrite Ve; lra|exact H]).
  destruct (fsub_finite s s0 Hs). auto.
Qed.
Lemma seconds_div s0 s : finite (fsub64 s s0) = true ->
  finite (seconds s0 s) = true /\ val (seconds s0 s) = rnd64 (val (fsub64 s s0) / 1000000000).
Proof.
  intros Hs. destruct val_e9 as (Fe & Ve).
  pose proof (Bdiv_correct 53 1024 _ _ mode_NE (fsub64 s s0) e9) as Hd. change (Bdiv mode_NE (fsub64 s s0) e9) with (seconds s0 s) in Hd. simpl round_mode in Hd.
  rewrite Ve in Hd. specialize (Hd ltac:(lra)). rewrite Rlt_bool_true in Hd; [destruct Hd as (D1 & D2 & _); rewrite D2; auto|].
  apply Rle_lt_trans with (bpow radix2 1023); [|apply bpow_lt; lia]. apply rnd_abs_le; [lia|].
  pose proof (abs_B2R_lt_emax 53 1024 (fsub64 s s0)) as Hb. unfold Rdiv. rewrite Rabs_mult, (Rabs_pos_eq (/ 1000000000)) by lra.
  assert (E : bpow radix2 1024 = (2 * bpow radix2 1023)%R) by (rewrite <- (bpow_plus radix2 1); reflexivity). pose proof (Rabs_pos (val (fsub64 s s0))). lra.
Qed.
Lemma seconds_bounds s0 s : finite (seconds s0 s) = true -> (val s0 <= val s)%R -> (0 <= val (seconds s0 s) <= bpow radix2 998)%R.
Proof.
  intros Hf Hle. destruct (seconds_fin _ _ Hf) as (F1 & F2 & F3). destruct (seconds_div _ _ F3) as (_ & ->).
  destruct (fsub_cases s s0 F1 F2) as [(_ & Vs)|(E & _ & _)]; [|rewrite E in F3; discriminate].
  assert (P : (0 <= val (fsub64 s s0))%R) by (rewrite Vs, <- rnd_0; apply rnd_mono; lra).
  split; [rewrite <- rnd_0; apply rnd_mono; lra|].
  eapply Rle_trans; [apply Rle_abs|]. apply rnd_abs_le; [lia|]. rewrite Rabs_pos_eq by lra.
  pose proof (abs_B2R_lt_emax 53 1024 (fsub64 s s0)) as Hb. rewrite Rabs_pos_eq in Hb by exact P.
  assert (E : bpow radix2 1024 = (67108864 * bpow radix2 998)%R) by (change 67108864%R with (bpow radix2 26); rewrite <- bpow_plus; reflexivity). lra.
Qed.
Lemma seconds_moderate s0 s : moderate s0 -> moderate s -> finite (seconds s0 s) = true.
Proof.
  intros (F0 & M0) (F1 & M1). apply seconds_div. destruct (fsub_cases s s0 F1 F0) as [(Ff & _)|(_ & _ & C)]; [exact Ff|exfalso].
  assert ((Rabs (rnd64 (val s - val s0)) <= bpow radix2 1001)%R).
  { apply rnd_abs_le; [lia|]. change 1001%Z with (1 + 1000)%Z. rewrite bpow_plus. change (bpow radix2 1) with 2%R.
    pose proof (Rabs_triang (val s) (- val s0)) as T. rewrite Rabs_Ropp in T. unfold Rminus. lra. }
  assert ((bpow radix2 1001 < bpow radix2 1024)%R) by (apply bpow_lt; lia). lra.
Qed.
(** finite stamps are strictly weakly ordered *)
Lemma swo_finite l : Forall (fun t : f64 => finite t = true) l -> swo_ok (TT := FTime) l = true.
Proof.
  intros Hl. rewrite Forall_forall in Hl. unfold swo_ok. apply forallb_forall. intros a Ia. apply andb_true_intro. split.
  { rewrite flt_val by auto. rewrite Rlt_bool_false by lra. reflexivity. }
  apply forallb_forall. intros b Ib. apply forallb_forall. intros c Ic. rewrite !flt_val by auto.
  repeat (match goal with |- context [Rlt_bool ?x ?y] => destruct (Rlt_bool_spec x y) end); simpl; auto; lra.
Qed.
(** the filter's times for stamps in time order never decrease *)
Lemma times_plausible s0 ss : Forall (fun s => finite (seconds s0 s) = true) (s0 :: ss) -> Forall (fun s => tlt (t := FTime) s s0 = false) ss ->
  plausible (seconds s0 s0)
  /\ StronglySorted (fun a b => tle (t := FTime) a b = true) (seconds s0 s0 :: times_after (seconds s0 s0) (map (seconds s0) (s0 :: ss)))
  /\ Forall plausible (times_after (seconds s0 s0) (map (seconds s0) (s0 :: ss))).
Proof.
  intros Hf Hs. assert (H0 : finite (seconds s0 s0) = true) by (inversion Hf; auto).
  assert (P0 : plausible (seconds s0 s0)).
  { split; auto. pose proof (seconds_bounds s0 s0 H0 (Rle_refl _)). assert ((bpow radix2 998 <= bpow radix2 999)%R) by (apply bpow_le; lia). lra. }
  split; auto. apply times_sorted; auto. apply Forall_map. apply Forall_forall. intros s Hin. rewrite Forall_forall in Hf, Hs. specialize (Hf s Hin).
  split; auto. apply seconds_bounds; auto. destruct (seconds_fin _ _ Hf) as (F1 & F2 & _).
  destruct Hin as [<-|Hin]; [apply Rle_refl|]. specialize (Hs s Hin). rewrite flt_val in Hs by auto.
  destruct (Rlt_bool_spec (val s) (val s0)); [discriminate|auto].
Qed.
Lemma seconds_sorted s0 ss : Forall (fun s => finite (seconds s0 s) = true) (s0 :: ss) -> Forall (fun s => tlt (t := FTime) s s0 = false) ss ->
  plausible (seconds s0 s0) /\ StronglySorted (fun a b => tle (t := FTime) a b = true) (times_after (seconds s0 s0) (map (seconds s0) (s0 :: ss))).
Proof. intros Hf Hs. destruct (times_plausible s0 ss Hf Hs) as (P & S & _). split; auto. inversion S; auto. Qed.

(** a filter at [now] that was told the measurements with stamps up to [p] *)
Definition near (now t : f64) : Prop := (Rabs (val now - val t) <= bpow radix2 (-32))%R.
Lemma near_step now s0 z0 p zp s z : plausible now -> stamp s0 z0 -> stamp p zp -> stamp s z ->
  (z0 <= zp <= z)%Z -> (z - z0 <= span)%Z -> near now (seconds s0 p) ->
  near (next_time now (seconds s0 s)) (seconds s0 s) /\ plausible (next_time now (seconds s0 s))
  /\ (zp <> z -> tle (t := FTime) now (seconds s0 s) = true).
Proof.
  intros Hn H0 Hp Hs Hz Hspan Near.
  destruct (seconds_ok s0 z0 p zp H0 Hp ltac:(lia)) as (Fp & Bp & Ep).
  destruct (seconds_ok s0 z0 s z H0 Hs ltac:(lia)) as (Ft & Bt & Et).
  set (t := seconds s0 s) in *. set (tp := seconds s0 p) in *.
  assert (b33 : bpow radix2 (-33) = (/ 8589934592)%R) by reflexivity.
  assert (b32 : bpow radix2 (-32) = (/ 4294967296)%R) by reflexivity.
  assert (b20 : bpow radix2 20 = 1048576%R) by reflexivity.
  unfold near in *. rewrite b33, b32 in *.
  assert (Bt998 : (0 <= val t <= bpow radix2 998)%R).
  { assert ((bpow radix2 20 <= bpow radix2 998)%R) by (apply bpow_le; lia). lra. }
  destruct (next_time_ok now t Hn (conj Ft Bt998)) as (P1 & L1 & Adv & Stay).
  assert (Key : (zp <> z -> val now <= val t)%R).
  { intros N. assert ((1 <= IZR (z - z0) - IZR (zp - z0))%R).
    { rewrite <- minus_IZR. apply IZR_le. lia. }
    revert Near Ep Et. unfold Rabs. repeat destruct Rcase_abs; lra. }
  split; [|split; [exact P1|]].
  - destruct (Rle_lt_dec (val now) (val t)) as [Hle|Hlt].
    + rewrite (Adv Hle). destruct Hn as (Fn & Bn).
      assert (E1 : (Rabs (rnd64 (val t - val now) - (val t - val now)) <= / 8589934592)%R).
      { rewrite <- b33. apply rnd_err. rewrite b20, Rabs_pos_eq; lra. }
      assert (Bs : (0 <= val now + rnd64 (val t - val now) <= 1048576)%R).
      { assert ((0 <= rnd64 (val t - val now))%R) by (rewrite <- rnd_0; apply rnd_mono; lra).
        revert E1. unfold Rabs. destruct Rcase_abs; lra. }
      assert (E2 : (Rabs (rnd64 (val now + rnd64 (val t - val now)) - (val now + rnd64 (val t - val now))) <= / 8589934592)%R).
      { rewrite <- b33. apply rnd_err. rewrite b20, Rabs_pos_eq; lra. }
      revert E1 E2. unfold Rabs. repeat destruct Rcase_abs; lra.
    + rewrite (Stay Hlt). destruct (Z.eq_dec zp z) as [E|N]; [|specialize (Key N); lra].
      assert (Evt : val t = val tp).
      { unfold t, tp. destruct Hp as (A & B), Hs as (A' & B').
        destruct (fsub_cases s s0 A' (proj1 H0)) as [(Fs & Vs)|(_ & _ & C)].
        2:{ exfalso. rewrite B', (proj2 H0), <- minus_IZR, rnd_id in C.
            - rewrite Rabs_pos_eq in C by (apply IZR_le; lia). assert ((bpow radix2 50 < bpow radix2 1024)%R) by (apply bpow_lt; lia).
              change (bpow radix2 50) with 1125899906842624%R in H. assert ((IZR (z - z0) <= IZR span)%R) by (apply IZR_le; lia). unfold span in *. change (IZR (2 ^ 49)) with 562949953421312%R in *. lra.
            - rewrite <- (Rmult_1_r (IZR (z - z0))). change 1%R with (bpow radix2 (-0)). apply grid_fmt; [lia|]. unfold span in *. lia. }
        destruct (fsub_cases p s0 A (proj1 H0)) as [(Fs' & Vs')|(_ & _ & C)].
        2:{ exfalso. rewrite B, (proj2 H0), <- minus_IZR, rnd_id in C.
            - rewrite Rabs_pos_eq in C by (apply IZR_le; lia). assert ((bpow radix2 50 < bpow radix2 1024)%R) by (apply bpow_lt; lia).
              change (bpow radix2 50) with 1125899906842624%R in H. assert ((IZR (zp - z0) <= IZR span)%R) by (apply IZR_le; lia). unfold span in *. change (IZR (2 ^ 49)) with 562949953421312%R in *. lra.
            - rewrite <- (Rmult_1_r (IZR (zp - z0))). change 1%R with (bpow radix2 (-0)). apply grid_fmt; [lia|]. unfold span in *. lia. }
        destruct val_e9 as (Fe & Ve).
        pose proof (Bdiv_correct 53 1024 _ _ mode_NE (fsub64 s s0) e9 ltac:(lra)) as D1. change (Bdiv mode_NE (fsub64 s s0) e9) with (seconds s0 s) in D1.
        pose proof (Bdiv_correct 53 1024 _ _ mode_NE (fsub64 p s0) e9 ltac:(lra)) as D2. change (Bdiv mode_NE (fsub64 p s0) e9) with (seconds s0 p) in D2.
        rewrite Vs', B, E, <- B', <- Vs in D2.
        destruct (Rlt_bool _ _) in D1, D2; [destruct D1 as (D1 & _), D2 as (D2 & _); rewrite D1, D2; reflexivity|].
        destruct H0 as (F0 & _). unfold tp in Fp. apply (f_equal is_finite_SF) in D2. rewrite is_finite_SF_B2SF, Fp in D2. discriminate D2. }
      rewrite Evt. exact Near.
  - intros N. rewrite fle_val by (try apply Hn; auto). apply Rle_bool_true. auto.
Qed.

(** all of them: with whole stamps in time order that span at most 6.5 days, the filter's time is
    always within 2^-32 s of the measurement's, and a measurement is only late if the one before it
    has the same stamp *)
Lemma near_list s0 z0 : stamp s0 z0 -> forall ss p now, plausible now -> (exists zp, stamp p zp) -> near now (seconds s0 p) ->
  Forall (fun s => exists z, stamp s z) ss -> Forall (fun s => (val s - val s0 <= IZR span)%R) ss ->
  StronglySorted (fun a b => (val a <= val b)%R) (p :: ss) -> (val s0 <= val p)%R ->
  forall k s, nth_error ss k = Some s ->
    exists before after, nth_error (now :: times_after now (map (seconds s0) ss)) k = Some before
      /\ nth_error (times_after now (map (seconds s0) ss)) k = Some after
      /\ near after (seconds s0 s)
      /\ (tle (t := FTime) before (seconds s0 s) = true \/ exists q, nth_error (p :: ss) k = Some q /\ val q = val s).
Proof.
  intros H0. induction ss as [|s ss IH]; intros p now Hn (zp & Hp) Near Hz Hb Hs Hlo k s' Hk; [destruct k; discriminate|].
  inversion Hz as [|? ? (z & Hsz) Hz']; subst. inversion Hb as [|? ? Hb1 Hb']; subst.
  inversion Hs as [|? ? Hs' Hps]; subst. inversion Hps as [|? ? Hle _]; subst.
  assert (Z1 : (z0 <= zp)%Z) by (destruct H0 as (_ & V0), Hp as (_ & V1); apply le_IZR; lra).
  assert (Z2 : (zp <= z)%Z) by (destruct Hsz as (_ & V0), Hp as (_ & V1); apply le_IZR; lra).
  assert (Z3 : (z - z0 <= span)%Z) by (destruct Hsz as (_ & V0), H0 as (_ & V1); apply le_IZR; rewrite minus_IZR; lra).
  destruct (near_step now s0 z0 p zp s z Hn H0 Hp Hsz ltac:(lia) Z3 Near) as (N1 & P1 & U1).
  destruct k as [|k].
  - injection Hk as <-. exists now, (next_time now (seconds s0 s)). split; [reflexivity|]. split; [reflexivity|]. split; [exact N1|].
    destruct (Z.eq_dec zp z) as [E|N]; [|left; auto]. right. exists p. split; [reflexivity|]. destruct Hsz as (_ & ->), Hp as (_ & ->). rewrite E. reflexivity.
  - cbn [nth_error] in Hk. destruct (IH s (next_time now (seconds s0 s)) P1 (ex_intro _ z Hsz) N1 Hz' Hb' Hs' ltac:(lra) k s' Hk) as (b & a & E1 & E2 & E3 & E4).
    exists b, a. cbn [map times_after nth_error]. auto.
Qed.

(** the same, for the whole run *)
Lemma near_main s0 z0 ss : stamp s0 z0 -> Forall (fun s => exists z, stamp s z) ss -> Forall (fun s => (val s - val s0 <= IZR span)%R) ss ->
  Forall (fun s => finite (seconds s0 s) = true) (s0 :: ss) ->
  StronglySorted (fun a b => tlt (t := FTime) b a = false) (s0 :: ss) ->
  let ts := times_after (seconds s0 s0) (map (seconds s0) (s0 :: ss)) in
  (forall k s t, nth_error (s0 :: ss) k = Some s -> nth_error ts k = Some t -> (Rabs (val t - (val s - val s0) / 1000000000) <= bpow radix2 (-31))%R)
  /\ (forall k q s t, nth_error (s0 :: ss) k = Some q -> nth_error (s0 :: ss) (S k) = Some s -> nth_error ts k = Some t -> val q <> val s ->
        tle (t := FTime) t (seconds s0 s) = true).
Proof.
  intros H0 Hz Hb Hf Hs ts.
  assert (Fin : Forall (fun s => finite s = true) (s0 :: ss)).
  { apply Forall_impl with (2 := Hf). intros s H. apply (seconds_fin _ _ H). }
  assert (Hv : StronglySorted (fun a b => (val a <= val b)%R) (s0 :: ss)).
  { clear - Hs Fin. induction Hs as [|a l Hl IH Ha]; constructor; inversion Fin as [|? ? Fa Fl]; subst; auto.
    rewrite Forall_forall in *. intros b Ib. specialize (Ha b Ib). rewrite flt_val in Ha by auto. destruct (Rlt_bool_spec (val b) (val a)); [discriminate|auto]. }
  assert (H0f : finite (seconds s0 s0) = true) by (inversion Hf; auto).
  assert (P0 : plausible (seconds s0 s0)).
  { split; auto. pose proof (seconds_bounds s0 s0 H0f (Rle_refl _)). assert ((bpow radix2 998 <= bpow radix2 999)%R) by (apply bpow_le; lia). lra. }
  assert (Sp0 : (val s0 - val s0 <= IZR span)%R) by (rewrite Rminus_diag_eq by reflexivity; apply IZR_le; unfold span; lia).
  assert (Key := near_list s0 z0 H0 (s0 :: ss) s0 (seconds s0 s0) P0 (ex_intro _ z0 H0)).
  assert (N0 : near (seconds s0 s0) (seconds s0 s0)).
  { unfold near. rewrite Rminus_diag_eq, Rabs_R0 by reflexivity. apply bpow_ge_0. }
  assert (Hz' : Forall (fun s => exists z, stamp s z) (s0 :: ss)) by (constructor; [exists z0; exact H0|exact Hz]).
  assert (Hb' : Forall (fun s => (val s - val s0 <= IZR span)%R) (s0 :: ss)) by (constructor; [exact Sp0|exact Hb]).
  specialize (Key N0 Hz' Hb').
  assert (Hv' : StronglySorted (fun a b => (val a <= val b)%R) (s0 :: s0 :: ss)).
  { constructor; auto. constructor; [apply Rle_refl|]. inversion Hv; auto. }
  specialize (Key Hv' (Rle_refl _)). fold ts in Key. split.
  - intros k s t Hk Ht. destruct (Key k s Hk) as (b & a & _ & E2 & E3 & _). rewrite Ht in E2. injection E2 as <-.
    assert (Hin : In s (s0 :: ss)) by (apply (nth_error_In _ k); exact Hk).
    assert (Hst : exists z, stamp s z) by (destruct Hin as [<-|Hin]; [exists z0; auto|rewrite Forall_forall in Hz; auto]).
    destruct Hst as (z & Hst).
    assert (B1 : (val s - val s0 <= IZR span)%R) by (destruct Hin as [<-|Hin]; [auto|rewrite Forall_forall in Hb; auto]).
    assert (B2 : (val s0 <= val s)%R) by (destruct Hin as [<-|Hin]; [lra|inversion Hv as [|? ? _ Hv1]; rewrite Forall_forall in Hv1; auto]).
    assert (Zd : (val s - val s0)%R = IZR (z - z0)) by (destruct Hst as (_ & ->), H0 as (_ & ->); rewrite minus_IZR; reflexivity).
    assert (Zb : (0 <= z - z0 <= span)%Z) by (split; apply le_IZR; rewrite <- Zd; lra).
    destruct (seconds_ok s0 z0 s z H0 Hst Zb) as (_ & _ & E). rewrite <- Zd in E. unfold near in E3.
    assert (b31 : bpow radix2 (-31) = (2 * bpow radix2 (-32))%R) by (rewrite <- (bpow_plus radix2 1); reflexivity).
    assert (b32 : bpow radix2 (-32) = (2 * bpow radix2 (-33))%R) by (rewrite <- (bpow_plus radix2 1); reflexivity).
    pose proof (bpow_gt_0 radix2 (-33)). revert E E3. unfold Rabs. repeat destruct Rcase_abs; lra.
  - intros k q s t Hq Hk Ht Hne. destruct (Key (S k) s Hk) as (b & a & E1 & _ & _ & E4). cbn [nth_error] in E1. rewrite Ht in E1. injection E1 as <-.
    destruct E4 as [E4|(q' & Hq' & Eq)]; auto. cbn [nth_error] in Hq'. change (nth_error (s0 :: ss) k = Some q') in Hq'. congruence.
Qed.

(** ** A measurement that is late although it is not: stamps 0, 2304, 6144, 6144 ns after the first *)
Definition w_s0 : f64 := fl64 1573333107444136960 0.
Definition w_s1 : f64 := fl64 (1573333107444136960 + 2304) 0.
Definition w_s2 : f64 := fl64 (1573333107444136960 + 6144) 0.
Lemma w_times : let t1 := seconds w_s0 w_s1 in let t2 := seconds w_s0 w_s2 in let now0 := seconds w_s0 w_s0 in
  let now1 := next_time now0 t1 in let now2 := next_time now1 t2 in
  tle (t := FTime) now0 t1 = true /\ tle (t := FTime) now1 t2 = true /\ tle (t := FTime) now2 t2 = false.
Proof. vm_compute. auto. Qed.
(** files with these stamps *)
From Coq Require Import String.
Local Open Scope list_scope.
Definition w_odom_file : str :=
  lit "header" ++ [newline] ++ lit "0,0,1573333107444136960,,,,,,,,,,0.5,0,0,,,0.25" ++ [newline].
Definition w_imu_file : str :=
  lit "header" ++ [newline] ++ lit "0,0,1573333107444139264,,,,,,0,0,0.25,0,0,9.75" ++ [newline] ++
  lit "0,0,1573333107444143104,,,,,,0,0,0.25,0.5,0,9.75" ++ [newline] ++
  lit "0,0,1573333107444143104,,,,,,0,0,0.25,0.5,0,9.75" ++ [newline].
Definition w_odom_data : list (list f64) := [[w_s0; fl64 1 (-1); fl64 0 0; fl64 0 0; fl64 1 (-2)]].
Definition w_imu_data : list (list f64) :=
  [[w_s1; fl64 0 0; fl64 0 0; fl64 39 (-2); fl64 0 0; fl64 0 0; fl64 1 (-2)];
   [w_s2; fl64 1 (-1); fl64 0 0; fl64 39 (-2); fl64 0 0; fl64 0 0; fl64 1 (-2)];
   [w_s2; fl64 1 (-1); fl64 0 0; fl64 39 (-2); fl64 0 0; fl64 0 0; fl64 1 (-2)]].
Lemma sf_inj2 (a b : list (list f64)) : map (map (fun x : f64 => B2SF x)) a = map (map (fun x : f64 => B2SF x)) b -> a = b.
Proof.
  assert (H1 : forall a b : list f64, map (fun x : f64 => B2SF x) a = map (fun x : f64 => B2SF x) b -> a = b).
  { induction a0 as [|x l IH]; intros [|y l'] H; try discriminate; auto. injection H as E1 E2. rewrite (IH l' E2). f_equal. apply B2SF_inj. exact E1. }
  revert b. induction a as [|x l IH]; intros [|y l'] H; try discriminate; auto. injection H as E1 E2. rewrite (IH l' E2), (H1 x y E1). reflexivity.
Qed.
Definition load_view (r : load_result) : option (list (list SpecFloat.spec_float)) :=
  match r with Loaded d => Some (map (map (fun x : f64 => B2SF x)) d) | _ => None end.
Lemma load_view_inj r d : load_view r = Some (map (map (fun x : f64 => B2SF x)) d) -> r = Loaded d.
Proof. destruct r as [d'| |]; try discriminate. intros H. injection H as H. rewrite (sf_inj2 _ _ H). reflexivity. Qed.
Lemma w_odom_load : loadCsvFields (Some w_odom_file) true Example6D.odom_fields [] = Loaded w_odom_data.
Proof. apply load_view_inj. vm_compute. reflexivity. Qed.
Lemma w_imu_load : loadCsvFields (Some w_imu_file) true Example6D.imu_fields [] = Loaded w_imu_data.
Proof. apply load_view_inj. vm_compute. reflexivity. Qed.
Definition below_2_68 (x : SpecFloat.spec_float) : bool :=
  match x with SpecFloat.S754_zero _ => true | SpecFloat.S754_finite _ m e => (e <=? 8)%Z && (Zpos m <=? 2 ^ 60)%Z | _ => false end.
Lemma below_moderate (x : f64) : below_2_68 (B2SF x) = true -> moderate x.
Proof.
  destruct x as [s|s| |s m e h]; try discriminate; intros H.
  - split; [reflexivity|]. change (val (B754_zero s)) with 0%R. rewrite Rabs_R0. apply bpow_ge_0.
  - split; [reflexivity|]. cbn [B2SF below_2_68] in H. apply andb_prop in H as (H1 & H2). apply Z.leb_le in H1, H2. unfold val. cbn [B2R].
    rewrite <- F2R_Zabs, abs_cond_Zopp. unfold F2R. cbn [Fnum Fexp Z.abs].
    apply Rle_trans with (bpow radix2 60 * bpow radix2 8)%R; [|rewrite <- bpow_plus; apply bpow_le; lia].
    apply Rmult_le_compat; [apply IZR_le; lia|apply bpow_ge_0| |apply bpow_le; lia].
    change (bpow radix2 60) with (IZR (2 ^ 60)). apply IZR_le. exact H2.
Qed.
Lemma w_finite : Forall (fun r => Forall (fun x => finite x = true) r /\ moderate (hd fzero r)) (w_odom_data ++ w_imu_data).
Proof. repeat (constructor; [split; [repeat (constructor; [vm_compute; reflexivity|]); constructor|apply below_moderate; vm_compute; reflexivity]|]); constructor. Qed.
Lemma w_rows t : nth_error (times_after (seconds w_s0 w_s0) (map (seconds w_s0) [w_s0; w_s1; w_s2; w_s2])) 2 = Some t ->
  tle (t := FTime) t (seconds w_s0 w_s2) = false.
Proof.
  assert (z : next_time (seconds w_s0 w_s0) (seconds w_s0 w_s0) = seconds w_s0 w_s0) by (apply B2SF_inj; vm_compute; reflexivity).
  cbn [map times_after nth_error]. rewrite z. intros H. apply (f_equal (fun o => match o with Some x => x | None => fzero end)) in H.
  cbv beta iota in H. rewrite <- H. clear. destruct w_times as (_ & _ & H3). exact H3.
Qed.
Lemma w_vals : val w_s0 = 1573333107444136960%R /\ val w_s1 = 1573333107444139264%R /\ val w_s2 = 1573333107444143104%R.
Proof.
  split; [|split]; rewrite <- SF2R_B2SF.
  - replace (B2SF w_s0) with (SpecFloat.S754_finite false 6145832450953660 8) by (vm_compute; reflexivity).
    unfold SF2R, F2R. cbn [cond_Zopp Fnum Fexp]. change (bpow radix2 8) with 256%R. lra.
  - replace (B2SF w_s1) with (SpecFloat.S754_finite false 6145832450953669 8) by (vm_compute; reflexivity).
    unfold SF2R, F2R. cbn [cond_Zopp Fnum Fexp]. change (bpow radix2 8) with 256%R. lra.
  - replace (B2SF w_s2) with (SpecFloat.S754_finite false 6145832450953684 8) by (vm_compute; reflexivity).
    unfold SF2R, F2R. cbn [cond_Zopp Fnum Fexp]. change (bpow radix2 8) with 256%R. lra.
Qed.
Lemma w_whole : Forall (fun s => exists z : Z, val s = IZR z) [w_s0; w_s1; w_s2; w_s2]
  /\ Forall (fun s => (val s - val w_s0 <= 2 ^ 49)%R) [w_s0; w_s1; w_s2; w_s2].
Proof.
  destruct w_vals as (V0 & V1 & V2). split.
  - repeat (constructor; [eexists; first [exact V0|exact V1|exact V2]|]). constructor.
  - assert (E : (2 ^ 49)%R = 562949953421312%R) by (rewrite (pow_IZR 2 49); reflexivity).
    rewrite E. repeat (constructor; [try rewrite V1; try rewrite V2; try rewrite V0; lra|]). constructor.
Qed.
