(** C104, C105: the origin of time.  FilterBase and the models see timestamps only through comparisons and
    differences, so counting time from another origin changes no estimate - with exact arithmetic, and with
    doubles that are multiples of 2^-k seconds; not with arbitrary doubles. *)
From Coq Require Import ZArith Reals Lra Lia Bool List.
From Flocq Require Import Core.Zaux Core.Raux Core.Defs Core.Generic_fmt Core.FLT Core.Float_prop IEEE754.BinarySingleNaN.
From Verif Require Import Outcome FB_Model FB_Time FB_Trace FB_Basic FB_Spec FB_Single FB_Sim FloatTime FB_Shift Props_FilterBase Props_FloatTime.
Import ListNotations.

(** what the user of a filter can see, apart from the time *)
Definition same_estimate {TT : TimeOps} {E : Env TT} (s s' : St E) : Prop :=
  getState s = getState s' /\ getCovariance s = getCovariance s' /\ c_sys (core s) = c_sys (core s') /\ c_meas (core s) = c_meas (core s').

Lemma st_same {TT : TimeOps} {E : Env TT} (TR : TT -> TT -> Prop) W (s s' : St E) : st_sh TR W s s' ->
  same_estimate s s' /\ TR (getStateTime s) (getStateTime s') /\ Forall2 (fun f g => f_x f = f_x g /\ f_cov f = f_cov g /\ TR (f_ts f) (f_ts g)) (hist s) (hist s').
Proof.
  intros Hs. pose proof (st_core _ _ _ _ Hs) as ((Hx & HP & Ht) & (_ & _ & Hsy & Hm)).
  split; [repeat split; auto|]. split; auto. exact (list_sh_est _ _ _ (st_hist _ _ _ _ Hs)).
Qed.

Lemma gnu_sort_by_comparisons {TT : TimeOps} (E : Env TT) : sort_by_comparisons (gnu_lib E).
Proof.
  intros Q HQ l l' Hl. simpl. unfold isort_ts.
  assert (Hi : forall i j a b, Q i j -> Forall2 Q a b -> Forall2 Q (ins_ts i a) (ins_ts j b)).
  { intros i j a b Hij Hab. induction Hab as [|c d a b Hcd Hab IH]; simpl; auto.
    match goal with |- context [tlt ?x ?y] => idtac end.
    rewrite <- (HQ _ _ _ _ Hij Hcd). destruct (tlt _ _); constructor; auto. }
  cut (forall a b, Forall2 Q a b -> Forall2 Q (fold_left (fun a i => ins_ts i a) l a) (fold_left (fun a i => ins_ts i a) l' b)); auto.
  induction Hl as [|i j l l' Hij Hl IH]; simpl; auto.
Qed.

(** ** Exact time *)
Definition later (c : Z) (t : ZTime) : ZTime := match t with ZFin z => ZFin (z + c) | ZInf => ZInf end.
Definition op_later {E : Env ZTime} (c : Z) (o : Op (E := E)) : Op (E := E) :=
  match o with
  | OpInit x P t => OpInit x P (later c t)
  | OpPredictT t => OpPredictT (later c t)
  | OpPredictU u t => OpPredictU u (later c t)
  | OpCorrect z Q t m => OpCorrect z Q (later c t) m
  | OpEnqC u t => OpEnqC u (later c t)
  | OpEnqM z Q t m => OpEnqM z Q (later c t) m
  | OpProcess => OpProcess | OpClearC => OpClearC | OpClearM => OpClearM
  | OpRevert t => OpRevert (later c t)
  | OpParams p => OpParams p | OpSys f => OpSys f | OpMeas f => OpMeas f
  end.
(** every time and duration in a call is finite *)
Definition finite_call {E : Env ZTime} (o : Op (E := E)) : Prop :=
  match o with
  | OpInit _ _ t | OpPredictT t | OpPredictU _ t | OpCorrect _ _ t _ | OpEnqC _ t | OpEnqM _ _ t _ | OpRevert t => zfin t
  | OpParams p => zfin (p_window p)
  | _ => True
  end.

Lemma ztime_shift c : TimeShift (TT := ZTime) (fun a b => zfin a /\ b = later c a) zfin.
Proof.
  apply (exact_shift ZTime_exact).
  - intros a a' ([z ->] & ->). split; eexists; reflexivity.
  - intros a b a' b' ([x ->] & ->) ([y ->] & ->). simpl. f_equal. lia.
  - intros a b w a' b' ([x ->] & ->) ([y ->] & ->) [v ->]. simpl. apply Bool.eq_iff_eq_true. rewrite !Z.ltb_lt. lia.
  - exists 1%Z. reflexivity.
Qed.

Lemma op_later_sh {E : Env ZTime} c (o : Op (E := E)) : finite_call o -> op_sh (fun a b => zfin a /\ b = later c a) zfin o (op_later c o).
Proof. destruct o; simpl; auto; intros; repeat split; auto. Qed.

Theorem C104_origin_of_time {E : Env ZTime} (L : Lib E) (c : Z) sy ms x P (t0 : ZTime) ops :
  sort_by_comparisons L -> zfin t0 -> Forall finite_call ops ->
  orel (fun s s' : St E => same_estimate s s' /\ getStateTime s' = later c (getStateTime s) /\ length (hist s) = length (hist s'))
    (run L ops (new_filter sy ms x P t0)) (run L (map (op_later c) ops) (new_filter sy ms x P (later c t0))).
Proof.
  intros HL Ht Ho. eapply orel_impl; [|apply (run_new_sh _ _ (ztime_shift c) L HL); [split; [exact Ht|reflexivity]|]].
  - intros s s' Hs. destruct (st_same _ _ _ _ Hs) as (A & (_ & B) & C). split; auto. split; auto. eapply Forall2_len; eauto.
  - clear Ht. induction Ho as [|o ops Ho1 Ho IH]; simpl; constructor; auto. apply op_later_sh; auto.
Qed.

(** ** Doubles that are multiples of 2^-k *)
Definition grid_later (k : Z) (c : R) (t t' : FTime) : Prop := grid k t /\ grid k t' /\ val t' = (val t + c)%R.

Lemma sub_m0 k (a b : FTime) : (0 <= k <= 52)%Z -> grid k a -> grid k b ->
  finite (tsub a b) = true /\ val (tsub a b) = (val a - val b)%R /\ not_m0 (tsub a b).
Proof.
  intros Hk Ga Gb. destruct (grid_sub k a b Hk Ga Gb) as (Hf & Hb).
  destruct Ga as (Fa & Za & _), Gb as (Fb & Zb & _). cbn [tsub FTime].
  destruct (fsub_cases a b Fa Fb) as [(Fs & Vs)|(_ & _ & Hc)]; [|rewrite rnd_id in Hc by auto; lra].
  rewrite rnd_id in Vs by auto. split; auto. split; auto. intros H0.
  assert (He : val a = val b) by lra. rewrite fsub_sign; auto; [|rewrite rnd_id by auto; exact Hb].
  destruct (Req_dec (val a) 0) as [Hz|Hz]; [rewrite (Za Hz); reflexivity|].
  pose proof (Bsign_le a Fa) as Sa. pose proof (Bsign_le b Fb) as Sb.
  destruct (Bsign a) eqn:Ea, (Bsign b) eqn:Eb; cbn; auto. lra.
Qed.

Lemma grid_shift k c : (0 <= k <= 52)%Z -> TimeShift (TT := FTime) (grid_later k c) (grid k).
Proof.
  intros Hk. apply (exact_shift (FTime_exact k Hk)).
  - intros a a' (Ga & Ga' & _). auto.
  - intros a b a' b' (Ga & Ga' & Va) (Gb & Gb' & Vb).
    destruct (sub_m0 k a b Hk Ga Gb) as (F1 & V1 & Z1), (sub_m0 k a' b' Hk Ga' Gb') as (F2 & V2 & Z2).
    apply val_inj; auto. rewrite V1, V2, Va, Vb. ring.
  - intros a b w a' b' (Ga & Ga' & Va) (Gb & Gb' & Vb) Gw.
    destruct (sub_m0 k b w Hk Gb Gw) as (F1 & V1 & _), (sub_m0 k b' w Hk Gb' Gw) as (F2 & V2 & _).
    rewrite (flt_val a (tsub b w)), (flt_val a' (tsub b' w)), V1, V2, Va, Vb; auto; [|apply Ga'|apply Ga].
    case Rlt_bool_spec; case Rlt_bool_spec; intros; auto; lra.
  - apply (FTime_exact k Hk).
Qed.

(** [op_sh (grid_later k c) (grid k) o o']: the same call, c seconds later, both times (and history windows)
    multiples of 2^-k s up to 2^(52-k) s *)
Theorem C104_origin_of_time_doubles {E : Env FTime} (L : Lib E) k (c : R) sy ms x P (t0 t0' : FTime) ops ops' :
  (0 <= k <= 52)%Z -> sort_by_comparisons L -> grid_later k c t0 t0' -> Forall2 (op_sh (grid_later k c) (grid k)) ops ops' ->
  orel (fun s s' : St E => same_estimate s s' /\ val (getStateTime s') = (val (getStateTime s) + c)%R /\ length (hist s) = length (hist s'))
    (run L ops (new_filter sy ms x P t0)) (run L ops' (new_filter sy ms x P t0')).
Proof.
  intros Hk HL Ht Ho. eapply orel_impl; [|apply (run_new_sh _ _ (grid_shift k c Hk) L HL); eauto].
  intros s s' Hs. destruct (st_same _ _ _ _ Hs) as (A & (_ & _ & B) & C). split; auto. split; auto. eapply Forall2_len; eauto.
Qed.

(** ** C105: not for arbitrary doubles, even if every timestamp is moved exactly *)
Definition finite_later (c : R) (t t' : FTime) : Prop := finite t = true /\ finite t' = true /\ val t' = (val t + c)%R.
Definition C105_claim : Prop :=
  forall (E : Env FTime) (L : Lib E) (c : R) sy ms x P (t0 t0' : FTime) ops ops',
  sort_by_comparisons L -> finite_later c t0 t0' ->
  Forall2 (op_sh (finite_later c) (fun w => finite w = true)) ops ops' ->
  orel (fun s s' : St E => getState s = getState s') (run L ops (new_filter sy ms x P t0)) (run L ops' (new_filter sy ms x P t0')).

(** a double given by mantissa and exponent has the value one expects *)
Lemma fl_val m e : (Z.abs m < 2 ^ 53)%Z -> (-1074 <= e <= 900)%Z -> finite (fl m e) = true /\ val (fl m e) = (IZR m * bpow radix2 e)%R.
Proof.
  intros Hm He. unfold fl.
  pose proof (binary_normalize_correct 53 1024 eq_refl eq_refl mode_NE m e false) as Hc. cbv zeta in Hc.
  assert (Hf : fmt64 (F2R (Float radix2 m e))).
  { apply (FLT.generic_format_FLT radix2 (-1074) 53). exists (Float radix2 m e); [reflexivity|exact Hm|exact (proj1 He)]. }
  rewrite round_generic in Hc; [|apply valid_rnd_N|exact Hf].
  rewrite Rlt_bool_true in Hc.
  - destruct Hc as (A & B & _). split; [exact B|exact A].
  - unfold F2R. cbn [Fnum Fexp]. rewrite Rabs_mult, (Rabs_pos_eq (bpow _ _)) by apply bpow_ge_0. rewrite <- abs_IZR.
    apply Rlt_le_trans with (bpow radix2 53 * bpow radix2 e)%R.
    + apply Rmult_lt_compat_r; [apply bpow_gt_0|]. change (bpow radix2 53) with (IZR (2 ^ 53)). apply IZR_lt. exact Hm.
    + rewrite <- bpow_plus. apply bpow_le. lia.
Qed.

(** from 2^-53: predict at 1 + 2^-52, then at 2; and everything 2^-52 s earlier *)
Definition late_ops : list (Op (E := FE)) := [OpPredictU (fu 5) (fl (2 ^ 52 + 1) (-52)); OpPredictU (fu 6) (fl 2 0)].
Definition early_ops : list (Op (E := FE)) := [OpPredictU (fu 5) (fl 1 0); OpPredictU (fu 6) (fl (2 ^ 53 - 1) (-52))].

Lemma bpow53 : bpow radix2 (-52) = (2 * bpow radix2 (-53))%R.
Proof. change 2%R with (bpow radix2 1). rewrite <- bpow_plus. reflexivity. Qed.
Lemma bpow53_1 : (IZR (2 ^ 52) * bpow radix2 (-52) = 1)%R.
Proof. change (IZR (2 ^ 52)) with (bpow radix2 52). rewrite <- bpow_plus. reflexivity. Qed.

Theorem C105_refuted : ~ C105_claim.
Proof.
  intros H. pose proof (H FE FLib (- bpow radix2 (-52))%R fsys [0%Z] [] 0%Z (fl 1 (-53)) (fl (-1) (-53)) late_ops early_ops) as C.
  assert (Hfl : forall m e m' e', (Z.abs m < 2 ^ 53)%Z -> (-1074 <= e <= 900)%Z -> (Z.abs m' < 2 ^ 53)%Z -> (-1074 <= e' <= 900)%Z ->
    (IZR m' * bpow radix2 e' = IZR m * bpow radix2 e + - bpow radix2 (-52))%R -> finite_later (- bpow radix2 (-52)) (fl m e) (fl m' e')).
  { intros m e m' e' A B A' B' He. destruct (fl_val m e A B) as (F1 & V1), (fl_val m' e' A' B') as (F2 & V2).
    split; [exact F1|]. split; [exact F2|]. rewrite V1, V2. exact He. }
  assert (Ht : finite_later (- bpow radix2 (-52)) (fl 1 (-53)) (fl (-1) (-53))).
  { apply Hfl; [reflexivity|lia|reflexivity|lia|]. rewrite bpow53. lra. }
  assert (Ho : Forall2 (op_sh (E := FE) (finite_later (- bpow radix2 (-52))) (fun w => finite w = true)) late_ops early_ops).
  { constructor; [|constructor; [|constructor]]; (split; [reflexivity|]).
    - apply Hfl; [reflexivity|lia|reflexivity|lia|]. rewrite plus_IZR. pose proof bpow53_1 as Hb. change (bpow radix2 0) with 1%R. lra.
    - apply Hfl; [reflexivity|lia|reflexivity|lia|]. rewrite minus_IZR. pose proof bpow53_1 as Hb. change (bpow radix2 0) with 1%R.
      replace (IZR (2 ^ 53)) with (2 * IZR (2 ^ 52))%R by (rewrite <- mult_IZR; reflexivity). lra. }
  specialize (C (gnu_sort_by_comparisons FE) Ht Ho). clear - C.
  assert (D : match run FLib late_ops (new_filter (E := FE) fsys [0%Z] [] 0%Z (fl 1 (-53))), run FLib early_ops (new_filter (E := FE) fsys [0%Z] [] 0%Z (fl (-1) (-53))) with
     | Ok s, Ok s' => map (fun k : tok FTime => match k with TPred _ _ dt => Some (B2SF (dt : f64)) | _ => None end) (getState s) =
                      map (fun k : tok FTime => match k with TPred _ _ dt => Some (B2SF (dt : f64)) | _ => None end) (getState s')
     | Ub _, Ub _ => True | _, _ => False end).
  { destruct (run FLib late_ops _), (run FLib early_ops _); cbn [orel] in C; auto. rewrite C. reflexivity. }
  clear C. vm_compute in D. discriminate D.
Qed.

(** ** The hypotheses can be met: twenty calls' worth of interleaving in a small run - rewinding on, a late
    measurement, queues, re-initialisation - with Unix-epoch seconds against seconds from zero *)
Definition zdat (z : Z) : V (TraceEnv ZTime) := [TNum z].
Definition C104_ops : list (Op (E := TraceEnv ZTime)) :=
  [OpParams (mkParams (TT := ZTime) true (ZFin 100) false); OpPredictU (zdat 5) (ZFin 3); OpPredictU (zdat 6) (ZFin 9);
   OpCorrect (zdat 7) 2%Z (ZFin 6) (Some 0); OpEnqC (zdat 8) (ZFin 12); OpEnqM (zdat 9) 3%Z (ZFin 8) (Some 0); OpProcess; OpRevert (E := TraceEnv ZTime) (ZFin 10 : ZTime)].
Example C104_nonvacuous :
  Forall finite_call C104_ops /\
  exists s, run (gnu_lib _) C104_ops (new_filter (E := TraceEnv ZTime) (mkTSys 1 7 None) [0%Z] [] 0%Z (ZFin 0)) = Ok s /\
    length (hist s) = 4 /\ length (getState s) = 6.
Proof. split; [repeat constructor; eexists; reflexivity|okex]. Qed.

Example C104_doubles_nonvacuous :
  grid_later 10 (IZR (2 ^ 30)) (fl 3 (-10)) (fl (3 + 2 ^ 40) (-10)).
Proof.
  destruct (fl_val 3 (-10)) as (F1 & V1); [reflexivity|lia|]. destruct (fl_val (3 + 2 ^ 40) (-10)) as (F2 & V2); [reflexivity|lia|].
  split; [|split].
  - split; [exact F1|]. split; [intros _; vm_compute; reflexivity|]. exists 3%Z. split; [exact V1|]. clear; lia.
  - split; [exact F2|]. split; [intros _; vm_compute; reflexivity|]. exists (3 + 2 ^ 40)%Z. split; [exact V2|]. clear; lia.
  - rewrite V1, V2. rewrite plus_IZR. change (IZR (2 ^ 40)) with (bpow radix2 40). change (IZR (2 ^ 30)) with (bpow radix2 30).
    rewrite Rmult_plus_distr_r, <- bpow_plus. reflexivity.
Qed.

(** what remains true for doubles of any size: the elapsed time of the first call is rounded alike, so the
    estimate after it is the same *)
Lemma fsub_shift c (a b a' b' : FTime) : finite_later c a a' -> finite_later c b b' -> not_m0 a -> not_m0 b -> not_m0 a' -> not_m0 b' ->
  tsub a b = tsub a' b' /\ tlt b a = tlt b' a' /\ tle b a = tle b' a'.
Proof.
  intros (Fa & Fa' & Va) (Fb & Fb' & Vb) Za Zb Za' Zb'.
  assert (Hd : (val a' - val b' = val a - val b)%R) by (rewrite Va, Vb; ring).
  split; [|split].
  2:{ rewrite !flt_val by auto. case Rlt_bool_spec; case Rlt_bool_spec; intros; auto; lra. }
  2:{ rewrite !fle_val by auto. case Rle_bool_spec; case Rle_bool_spec; intros; auto; lra. }
  assert (Hz : forall p q : FTime, finite p = true -> finite q = true -> not_m0 p -> not_m0 q -> finite (fsub64 p q) = true -> not_m0 (fsub64 p q)).
  { intros p q Fp Fq Zp Zq Fs H0.
    destruct (fsub_cases p q Fp Fq) as [(_ & Vs)|(Hi & _)]; [|rewrite Hi in Fs; discriminate].
    destruct (Req_dec (val p) (val q)) as [He|He]; [|exfalso; apply (sub_neq_0 p q Fp Fq He); congruence].
    rewrite fsub_sign; auto; [|rewrite <- Vs, H0, Rabs_R0; apply bpow_gt_0].
    destruct (Req_dec (val p) 0) as [Hp|Hp]; [rewrite (Zp Hp); reflexivity|].
    pose proof (Bsign_le p Fp) as Sp. pose proof (Bsign_le q Fq) as Sq.
    destruct (Bsign p), (Bsign q); cbn; auto. lra. }
  cbn [tsub FTime].
  destruct (fsub_cases a b Fa Fb) as [(Fs & Vs)|(Hi & Hs & Hr)], (fsub_cases a' b' Fa' Fb') as [(Fs' & Vs')|(Hi' & Hs' & Hr')].
  - apply val_inj; auto. rewrite Vs, Vs', Hd. reflexivity.
  - exfalso. rewrite Hd, <- Vs in Hr'. pose proof (abs_B2R_lt_emax _ _ (fsub64 a b)). lra.
  - exfalso. rewrite <- Hd, <- Vs' in Hr. pose proof (abs_B2R_lt_emax _ _ (fsub64 a' b')). lra.
  - rewrite Hi, Hi'. f_equal. destruct (Bsign a), (Bsign a'); auto; lra.
Qed.

Local Arguments control_update : simpl never.
Local Arguments meas_update : simpl never.
Theorem C105_first_call_partial {E : Env FTime} (L : Lib E) (c : R) sy ms x P (t0 t0' t t' : FTime) o o' :
  finite_later c t0 t0' -> finite_later c t t' -> Forall not_m0 [t0; t0'; t; t'] ->
  (o = OpPredictT t /\ o' = OpPredictT t' \/ (exists u, o = OpPredictU u t /\ o' = OpPredictU u t') \/
   exists z Q m, o = OpCorrect z Q t m /\ o' = OpCorrect z Q t' m) ->
  orel (fun s s' : St E => same_estimate s s') (step L (new_filter sy ms x P t0) o) (step L (new_filter sy ms x P t0') o').
Proof.
  intros H0 Ht Hz Ho. inversion Hz as [|? ? Z1 Hz1]; subst. inversion Hz1 as [|? ? Z2 Hz2]; subst.
  inversion Hz2 as [|? ? Z3 Hz3]; subst. inversion Hz3 as [|? ? Z4 _]; subst. clear Hz Hz1 Hz2 Hz3.
  destruct (fsub_shift c _ _ _ _ Ht H0 Z3 Z1 Z4 Z2) as (Hs & Hl & Hle).
  assert (Hctl : forall u t1 t1', tsub t1 t0 = tsub t1' t0' ->
    orel (fun c1 c1' : Core E => f_x (c_cur c1) = f_x (c_cur c1') /\ f_cov (c_cur c1) = f_cov (c_cur c1') /\ c_sys c1 = c_sys c1' /\ c_meas c1 = c_meas c1')
      (applyControlInput (core (new_filter sy ms x P t0)) (mkInput u (s_Rc sy) t1 true None))
      (applyControlInput (core (new_filter sy ms x P t0')) (mkInput u (s_Rc sy) t1' true None))).
  { intros u t1 t1' Hd. unfold applyControlInput, choose_control.
    cbn [i_data c_pc i_ts c_cur f_ts set_ts set_est i_cov c_pcc core c_sys f_x f_cov new_filter initialize default_fstate]. rewrite Hd.
    destruct (0 <? vsize u); [|destruct (0 <? vsize (vempty : V E))];
      cbn [c_sys set_pc c_cur f_x f_cov set_ts set_est]; (match goal with |- context [control_update ?a ?b ?c ?d ?e ?f ?g] => destruct (control_update a b c d e f g) as [[[sy1 x1] P1]|] end; cbn; auto). }
  assert (Hpn : forall s : St E, par s = default_params -> pruneHistory L s = Ok s).
  { intros s Hp. unfold pruneHistory. rewrite Hp. reflexivity. }
  assert (Hcorr : forall z Q m,
    orel (fun c1 c1' : Core E => f_x (c_cur c1) = f_x (c_cur c1') /\ f_cov (c_cur c1) = f_cov (c_cur c1') /\ c_sys c1 = c_sys c1' /\ c_meas c1 = c_meas c1')
      (applyMeasurementInput (core (new_filter sy ms x P t0)) (mkInput z Q t false m))
      (applyMeasurementInput (core (new_filter sy ms x P t0')) (mkInput z Q t' false m))).
  { intros z Q m. unfold applyMeasurementInput. cbn [i_ts c_cur f_ts core new_filter initialize set_ts i_model i_data i_cov].
    eapply orel_bind with (Q := fun c1 c1' : Core E => f_x (c_cur c1) = f_x (c_cur c1') /\ f_cov (c_cur c1) = f_cov (c_cur c1') /\ c_sys c1 = c_sys c1' /\ c_meas c1 = c_meas c1').
    - unfold advance_if_needed. rewrite Hs. destruct (tlt tzero (tsub t' t0')); [|cbn; auto].
      eapply orel_bind; [|intros c1 c1' Hc; exact Hc].
      unfold applyControlInput, choose_control. cbn [i_data c_pc i_ts c_cur f_ts set_ts set_est i_cov c_pcc core c_sys f_x f_cov].
      rewrite Hs. destruct (0 <? vsize (vempty : V E)); 
      cbn [c_sys set_pc c_cur f_x f_cov set_ts set_est]; (match goal with |- context [control_update ?a ?b ?c ?d ?e ?f ?g] => destruct (control_update a b c d e f g) as [[[sy1 x1] P1]|] end; cbn; auto).
    - intros c1 c1' (A & B & C & D). rewrite <- A, <- B, <- C, <- D, <- Hs.
      destruct m as [k|]; [|cbn; auto]. destruct (nth_error (c_meas c1) k) as [q|]; [|cbn; auto].
      destruct (meas_update _ _ _ _ _ _ _) as [[[[sy1 m1] x1] P1]|]; cbn; auto. }
  assert (Hgo : forall i i' : FInput E, 
    orel (fun c1 c1' : Core E => f_x (c_cur c1) = f_x (c_cur c1') /\ f_cov (c_cur c1) = f_cov (c_cur c1') /\ c_sys c1 = c_sys c1' /\ c_meas c1 = c_meas c1')
      (input_core (core (new_filter sy ms x P t0)) i) (input_core (core (new_filter sy ms x P t0')) i') ->
    orel (fun s s' : St E => same_estimate s s') (let* s1 := applyInput (new_filter sy ms x P t0) i in pruneHistory L s1)
       (let* s1 := applyInput (new_filter sy ms x P t0') i' in pruneHistory L s1)).
  { intros i i' Hi. unfold applyInput. destruct (input_core _ i) as [c1|], (input_core _ i') as [c2|]; cbn in Hi |- *; auto. }
  assert (Hic : forall i i' : FInput E, i_ctl i = true -> i_ctl i' = true ->
    orel (fun c1 c1' : Core E => f_x (c_cur c1) = f_x (c_cur c1') /\ f_cov (c_cur c1) = f_cov (c_cur c1') /\ c_sys c1 = c_sys c1' /\ c_meas c1 = c_meas c1')
      (applyControlInput (core (new_filter sy ms x P t0)) i) (applyControlInput (core (new_filter sy ms x P t0')) i') ->
    orel (fun c1 c1' : Core E => f_x (c_cur c1) = f_x (c_cur c1') /\ f_cov (c_cur c1) = f_cov (c_cur c1') /\ c_sys c1 = c_sys c1' /\ c_meas c1 = c_meas c1')
      (input_core (core (new_filter sy ms x P t0)) i) (input_core (core (new_filter sy ms x P t0')) i')).
  { intros i i' Ei Ei' Hi. unfold input_core. rewrite Ei, Ei'.
    destruct (applyControlInput _ i) as [c1|], (applyControlInput _ i') as [c2|]; cbn in Hi |- *; auto. }
  destruct Ho as [(-> & ->)|[(u & -> & ->)|(z & Q & m & -> & ->)]]; cbn [step].
  - unfold predict_t, getStateTime. cbn [core new_filter initialize set_ts c_cur f_ts]. rewrite Hl.
    destruct (tlt t0' t'); [|cbn; repeat split].
    apply Hgo, Hic; [reflexivity|reflexivity|]. apply Hctl; auto.
  - unfold predict_u, getStateTime. cbn [par new_filter initialize default_params p_rewind negb core set_ts c_cur f_ts]. rewrite Hle.
    destruct (tle t0' t'); [|cbn; repeat split].
    apply Hgo, Hic; [reflexivity|reflexivity|]. apply Hctl; auto.
  - unfold correct, getStateTime. cbn [par new_filter initialize default_params p_rewind p_past negb core set_ts c_cur f_ts orb]. rewrite Hs.
    destruct (tle tzero (tsub t' t0')); [|cbn; repeat split].
    apply Hgo. unfold input_core. cbn [i_ctl]. specialize (Hcorr z Q m).
    destruct (applyMeasurementInput _ _) as [c1|], (applyMeasurementInput _ _) as [c2|]; cbn in Hcorr |- *; auto.
Qed.
