(** Properties of the filter with IEEE-754 double timestamps (C05, C08, C29, C74, C75 and the
    exact-time properties on a dyadic grid). *)
From Coq Require Import ZArith Reals Lra Lia Bool List Permutation Sorted.
From Flocq Require Import Core.Zaux Core.Raux Core.Defs IEEE754.BinarySingleNaN.
From Verif Require Import Outcome FB_Model FB_Time FB_Trace FB_Basic FB_Spec FB_Single FB_Order FB_Replay FloatTime Props_FilterBase Props_Rewind.
Import ListNotations.

Definition FE : Env FTime := TraceEnv FTime.
Definition FLib : Lib FE := gnu_lib FE.
(** a double from mantissa and exponent: m * 2^e *)
Definition fl (m : Z) (e : Z) : f64 := binary_normalize 53 1024 eq_refl eq_refl mode_NE m e false.
Definition fsys : Sys FE := mkTSys 1 7 None.
Definition fnew (p : Params FTime) (t : f64) : St FE :=
  mkSt p (core (new_filter (E := FE) fsys [0%Z] [] 0%Z t)) [] [] [].
Definition F_off : Params FTime := mkParams (TT := FTime) false (fl 100 0) false.
Definition F_on : Params FTime := mkParams (TT := FTime) true (fl 100 0) false.
Definition fu (z : Z) : V FE := [TNum z].
Definition fgot (o : outcome (St FE)) : St FE := got o (fnew F_off fzero).

(** ** C08: the time after predict(u, t) *)
Definition C08_claim : Prop :=
  forall (E : Env FTime) (L : Lib E) (s s' : St E) u (t : FTime),
  finite (getStateTime s) = true -> finite t = true -> tle (getStateTime s) t = true ->
  step L s (OpPredictU u t) = Ok s' -> getStateTime s' = t.
(** now = 2^-53, t = 1 + 2^-52: the time becomes 1.0 *)
Theorem C08_refuted : ~ C08_claim.
Proof.
  intros H.
  unshelve epose proof (H FE FLib (fnew F_off (fl 1 (-53))) _ (fu 5) (fl (2 ^ 52 + 1) (-52)) _ _ _ (got_ok _ (fnew F_off fzero) _)) as C;
    try (vm_compute; reflexivity).
  apply (f_equal (fun x : f64 => B2SF x)) in C. vm_compute in C. discriminate C.
Qed.

(** What it becomes, exactly: the rounded sum of the old time and the rounded difference *)
Theorem C08_time_partial {E : Env FTime} (L : Lib E) (s s' : St E) u (t : FTime) :
  tle (getStateTime s) t = true -> step L s (OpPredictU u t) = Ok s' ->
  getStateTime s' = fadd64 (getStateTime s) (fsub64 t (getStateTime s)).
Proof.
  intros Hle Hst. assert (Ho : on_time s t).
  { unfold on_time. destruct (p_rewind (par s)); auto.
    destruct (tlt t (getStateTime s)) eqn:Et; auto. apply (proj2 FTime_cmp) in Et. congruence. }
  apply predict_u_core in Hst as (Hst & _); auto. apply input_core_time in Hst as (Ht & _). exact Ht.
Qed.
(** ... which is t when t is at most twice the old (positive) time: always, for a filter that
    runs on Unix time, and from the second half of the run on for one that starts at 0; *)
Theorem C08_within_factor_two_partial {E : Env FTime} (L : Lib E) (s s' : St E) u (t : FTime) :
  finite (getStateTime s) = true -> finite t = true ->
  (0 < val (getStateTime s))%R -> (val (getStateTime s) <= val t <= 2 * val (getStateTime s))%R ->
  step L s (OpPredictU u t) = Ok s' -> getStateTime s' = t.
Proof.
  intros Fn Ft Hp Hr Hst. rewrite (C08_time_partial L s s' u t); auto.
  - apply fadv_sterbenz; auto.
  - rewrite fle_val by auto. apply Rle_bool_true. lra.
Qed.
(** and when both times are multiples of 2^-k of magnitude at most 2^(52-k), 0 <= k <= 52. *)
Theorem C08_grid_partial {E : Env FTime} (L : Lib E) k (s s' : St E) u (t : FTime) :
  (0 <= k <= 52)%Z -> grid k (getStateTime s) -> grid k t -> tle (getStateTime s) t = true ->
  step L s (OpPredictU u t) = Ok s' -> getStateTime s' = t.
Proof.
  intros Hk Gn Gt Hle Hst. apply (C07_accepted_sets_time L (fin := grid k)) with (t := t) (s := s) (s' := s') in Gt; auto.
  - apply Gt in Hst. exact Hst.
  - apply FTime_exact; auto.
Qed.
Example C08_nonvacuous : exists s' : St FE,
  step FLib (fnew F_off (fl 3 (-1))) (OpPredictU (fu 5) (fl 5 (-1))) = Ok s' /\
  (is_finite (fl 3 (-1)) = true /\ is_finite (fl 5 (-1)) = true).
Proof. okex. Qed.
Example C08_grid_nonvacuous : grid 1 (fl 3 (-1)).
Proof.
  split; [reflexivity|]. split.
  - intros _. reflexivity.
  - exists 3%Z. split; [|simpl; lia]. simpl. unfold B2R, F2R. simpl. lra.
Qed.

(** ** C05 in doubles, rewinding off: the time never decreases, for every sequence of calls whose
    timestamps are NaN or of magnitude at most 2^1000 *)
Definition f_direct {E : Env FTime} (o : Op (E := E)) : Prop :=
  match o with
  | OpPredictT t | OpPredictU _ t | OpCorrect _ _ t _ => t = fnan \/ moderate t
  | _ => False
  end.

(** finite and not below -2^1000 *)
Definition low_ok (t : f64) : Prop := finite t = true /\ (- bpow radix2 1000 <= val t)%R.

Lemma double_step {E : Env FTime} (L : Lib E) (s s' : St E) o :
  p_rewind (par s) = false -> f_direct o -> low_ok (getStateTime s) -> step L s o = Ok s' ->
  p_rewind (par s') = false /\ tle (getStateTime s) (getStateTime s') = true /\ low_ok (getStateTime s').
Proof.
  intros Hr Ho Hm Hst. pose proof Hm as (Fn & Bn).
  assert (Hrefl : tle (getStateTime s) (getStateTime s) = true).
  { rewrite fle_val by auto. apply Rle_bool_true. lra. }
  assert (Hadv : forall t, (t = fnan \/ moderate t) -> tle (t := FTime) (getStateTime s) t = true ->
    tle (t := FTime) (getStateTime s) (fadd64 (getStateTime s) (fsub64 t (getStateTime s))) = true /\
    low_ok (fadd64 (getStateTime s) (fsub64 t (getStateTime s)))).
  { intros t [->|Ht] Hle; [rewrite nan_le_r in Hle; discriminate|].
    assert (H1 : tle (t := FTime) (getStateTime s) (fadd64 (getStateTime s) (fsub64 t (getStateTime s))) = true).
    { apply fadv_ge; auto. apply Ht. }
    assert (Hmod : moderate (getStateTime s)).
    { split; auto. destruct Ht as (Ft & Bt). rewrite fle_val in Hle by auto. apply Rle_bool_iff in Hle.
      apply Rabs_le. revert Bt. unfold Rabs. destruct Rcase_abs; lra. }
    assert (Fa : finite (fadd64 (getStateTime s) (fsub64 t (getStateTime s))) = true) by (apply fadv_finite; auto).
    split; auto. split; auto. rewrite fle_val in H1 by auto. apply Rle_bool_iff in H1. lra. }
  assert (Happ : forall i : FInput E, (i_ts i = fnan \/ moderate (i_ts i)) ->
    (i_ctl i = true -> tle (getStateTime s) (i_ts i) = true) ->
    (let* s1 := applyInput s i in pruneHistory L s1) = Ok s' ->
    p_rewind (par s') = false /\ tle (getStateTime s) (getStateTime s') = true /\ low_ok (getStateTime s')).
  { intros i Hi Hc Ha. apply pruned_input_time in Ha as (Ht & Hp). rewrite Hp. split; auto.
    unfold time_after in Ht. destruct (i_ctl i).
    - destruct (Hadv _ Hi (Hc eq_refl)) as (A & B). rewrite Ht. auto.
    - destruct (tlt tzero (tsub (i_ts i) (getStateTime s))) eqn:Et; [|rewrite Ht; auto].
      assert (Hle : tle (getStateTime s) (i_ts i) = true).
      { destruct Hi as [Hi|Hi]; [rewrite Hi, nan_sub_l, nan_lt_r in Et; discriminate|].
        rewrite <- fsub_nonneg by (auto; apply Hi). apply (proj1 FTime_cmp). exact Et. }
      destruct (Hadv _ Hi Hle) as (A & B). rewrite Ht. auto. }
  assert (Hsame : Ok s = Ok s' -> p_rewind (par s') = false /\ tle (getStateTime s) (getStateTime s') = true /\ low_ok (getStateTime s')).
  { intros [= <-]. auto. }
  destruct o; simpl in Ho; try contradiction; cbn [step] in Hst.
  - unfold predict_t in Hst. destruct (tlt (getStateTime s) t) eqn:Et; auto.
    apply Happ in Hst; auto. intros _. apply (proj1 FTime_cmp). exact Et.
  - unfold predict_u in Hst. rewrite Hr in Hst. simpl negb in Hst. cbv iota in Hst.
    destruct (tle (getStateTime s) t) eqn:Et; auto. apply Happ in Hst; auto.
  - unfold correct in Hst. rewrite Hr in Hst. simpl negb in Hst. cbv iota in Hst.
    destruct (p_past (par s) || _) eqn:Et; auto. apply Happ in Hst; auto. discriminate.
Qed.

Lemma double_run {E : Env FTime} (L : Lib E) ops : forall (s s' : St E),
  p_rewind (par s) = false -> Forall f_direct ops -> low_ok (getStateTime s) -> run L ops s = Ok s' ->
  p_rewind (par s') = false /\ tle (getStateTime s) (getStateTime s') = true /\ low_ok (getStateTime s').
Proof.
  induction ops as [|o ops IH]; intros s s' Hr Ho Hm Hrun; unfold run in Hrun; cbn [ofold] in Hrun.
  - injection Hrun as <-. split; auto. split; auto. rewrite fle_val by apply Hm. apply Rle_bool_true. lra.
  - apply obind_ok in Hrun as (s1 & H1 & H2). inversion Ho as [|? ? Ho1 Ho2]; subst.
    apply double_step in H1 as (P1 & L1 & M1); auto. apply IH in H2 as (P2 & L2 & M2); auto.
    split; auto. split; auto. destruct Hm as (F & _), M1 as (F1 & _), M2 as (F2 & _).
    rewrite fle_val in * by auto. rewrite Rle_bool_iff in *. lra.
Qed.

Theorem C05_doubles_without_rewind {E : Env FTime} (L : Lib E) sy ms x P (t0 : FTime) w past ops1 ops2 (s1 s2 : St E) :
  moderate t0 -> Forall f_direct (ops1 ++ ops2) ->
  run L (OpParams (mkParams false w past) :: ops1) (new_filter sy ms x P t0) = Ok s1 -> run L ops2 s1 = Ok s2 ->
  tle (getStateTime s1) (getStateTime s2) = true /\ finite (getStateTime s2) = true.
Proof.
  intros (F0 & B0) Ho H1 H2. unfold run in H1. cbn [ofold step obind] in H1. apply Forall_app in Ho as (O1 & O2).
  apply double_run in H1 as (P1 & _ & M1); auto.
  - apply double_run in H2 as (P2 & L2 & M2); auto. split; auto. apply M2.
  - split; [exact F0|]. change (- bpow radix2 1000 <= val t0)%R. revert B0. unfold Rabs. destruct Rcase_abs; intros; [|pose proof (bpow_gt_0 radix2 1000)]; lra.
Qed.
Example C05_doubles_nonvacuous : exists s : St FE,
  run FLib [OpPredictU (fu 5) (fl 1 (-4)); OpPredictU (fu 5) fnan; OpCorrect (fu 5) 3%Z (fl 7 (-2)) (Some 0)] (fnew F_off fzero) = Ok s /\
  length (getState s) = 3.
Proof. okex. Qed.

(** ** C74: with rewinding on it can decrease: predict at 1 + 2^-52, then late at 2^-53; the
    replay of the first input ends at 1.0 *)
Definition C74_claim : Prop :=
  forall (E : Env FTime) (L : Lib E) (s s' : St E) u (t : FTime),
  lib_strict L = false -> p_rewind (par s) = true -> finite (getStateTime s) = true -> finite t = true ->
  Forall (fun t : FTime => finite t = true) (map f_ts (hist s)) -> StronglySorted (fun a b : FTime => tle a b = true) (map f_ts (hist s)) ->
  step L s (OpPredictU u t) = Ok s' -> tle (getStateTime s) (getStateTime s') = true.
Theorem C74_refuted : ~ C74_claim.
Proof.
  intros H. set (s0 := fgot (run FLib [OpPredictU (fu 5) (fl (2 ^ 52 + 1) (-52))] (fnew F_on fzero))).
  assert (Hh : map f_ts (hist s0) = [fzero : FTime]) by (vm_compute; reflexivity).
  specialize (H FE FLib s0 (got (step FLib s0 (OpPredictU (fu 6) (fl 1 (-53)))) s0) (fu 6) (fl 1 (-53)) eq_refl).
  rewrite Hh in H.
  assert (C : tle (getStateTime s0) (getStateTime (got (step FLib s0 (OpPredictU (fu 6) (fl 1 (-53)))) s0)) = true).
  { apply H; [vm_compute; reflexivity|vm_compute; reflexivity|vm_compute; reflexivity|repeat constructor|repeat constructor|apply got_ok; vm_compute; reflexivity]. }
  vm_compute in C. discriminate C.
Qed.
(** on a dyadic grid it never does (the C05 theorem for doubles) *)
Theorem C74_grid_partial {E : Env FTime} (L : Lib E) k sy ms x P (t0 : FTime) p ops s :
  lib_strict L = false -> (0 <= k <= 52)%Z -> grid k t0 -> Forall (direct_op (E := E) (fin := grid k)) ops ->
  forall ops1 ops2, ops = ops1 ++ ops2 ->
  run L (OpParams p :: ops) (new_filter sy ms x P t0) = Ok s ->
  exists s1, run L (OpParams p :: ops1) (new_filter sy ms x P t0) = Ok s1
    /\ run L ops2 s1 = Ok s /\ tle (getStateTime (E := E) s1) (getStateTime s) = true.
Proof. intros Hl Hk H0 Ho. eapply C05_time_monotone; eauto. apply FTime_exact; auto. Qed.

(** ** C09, C10 for doubles on a dyadic grid *)
Theorem C09_late_controls_doubles {E : Env FTime} (L : Lib E) k sy ms SL ML x P (t0 w : FTime) past us us' s :
  lib_strict L = false -> SortOk L -> (0 <= k <= 52)%Z -> Memoryless E sy ms SL ML -> vsize (vempty : V E) = 0%nat ->
  grid k t0 -> grid k w -> tle (tsub t0 w) t0 = true ->
  Forall (fun c : V E * FTime => (0 < vsize (fst c))%nat) us ->
  NoDup (map snd us) -> Forall (in_window (TT := FTime) (fin := grid k) t0 w) (map snd us) ->
  Permutation us' us -> StronglySorted (fun a b => tlt (snd a) (snd b) = true) us' ->
  run L (rewinding w past (map (fun c => OpPredictU (fst c) (snd c)) us)) (new_filter sy ms x P t0) = Ok s ->
  exists s', run L (rewinding w past (map (fun c => OpPredictU (fst c) (snd c)) us')) (new_filter sy ms x P t0) = Ok s'
    /\ est s' = est s.
Proof. intros. eapply C09_late_controls; eauto. apply FTime_exact; auto. Qed.
Theorem C10_late_measurements_doubles {E : Env FTime} (L : Lib E) k sy ms SL ML x P (t0 w : FTime) past zs zs' s :
  lib_strict L = false -> SortOk L -> (0 <= k <= 52)%Z -> Memoryless E sy ms SL ML -> vsize (vempty : V E) = 0%nat ->
  grid k t0 -> grid k w -> tle (tsub t0 w) t0 = true ->
  NoDup (map m_time zs) -> Forall (in_window (TT := FTime) (fin := grid k) t0 w) (map m_time zs) ->
  Permutation zs' zs -> StronglySorted (fun a b => tlt (m_time a) (m_time b) = true) zs' ->
  run L (rewinding w past (map (fun m => let '(z, Q, t, k) := m in OpCorrect z Q t k) zs)) (new_filter sy ms x P t0) = Ok s ->
  exists s', run L (rewinding w past (map (fun m => let '(z, Q, t, k) := m in OpCorrect z Q t k) zs')) (new_filter sy ms x P t0) = Ok s'
    /\ est s' = est s.
Proof. intros. eapply C10_late_measurements; eauto. apply FTime_exact; auto. Qed.

(** ** C29: NaN timestamps *)
Definition C29_claim : Prop :=
  forall (E : Env FTime) (L : Lib E) (s s' : St E) o,
  (exists u, o = OpPredictU u (fnan : FTime)) \/ o = OpPredictT (fnan : FTime) \/ (exists z Q m, o = OpCorrect z Q (fnan : FTime) m) ->
  step L s o = Ok s' -> s' = s.
Theorem C29_refuted : ~ C29_claim.
Proof.
  intros H.
  pose proof (H FE FLib (fnew F_on fzero) (got (step FLib (fnew F_on fzero) (OpPredictU (fu 5) (fnan : FTime))) (fnew F_on fzero)) (OpPredictU (fu 5) (fnan : FTime))
    (or_introl (ex_intro _ _ eq_refl))) as C.
  assert (Hok : is_ok (step FLib (fnew F_on fzero) (OpPredictU (fu 5) (fnan : FTime))) = true) by (vm_compute; reflexivity).
  specialize (C (got_ok _ _ Hok)).
  apply (f_equal (fun s : St FE => B2SF (getStateTime s))) in C. vm_compute in C. discriminate C.
Qed.
(** predict(NaN) is always ignored; with rewinding off and measurements in the past not allowed
    all three are ignored; with allow_measurements_in_past, correct applies the measurement but
    keeps the time; with rewinding on predict(u, NaN) makes the time NaN. *)
Theorem C29_nan_partial {E : Env FTime} (L : Lib E) (s : St E) :
  step L s (OpPredictT (fnan : FTime)) = Ok s /\
  (p_rewind (par s) = false -> forall u, step L s (OpPredictU u (fnan : FTime)) = Ok s) /\
  (p_rewind (par s) = false -> p_past (par s) = false -> forall z Q m, step L s (OpCorrect z Q (fnan : FTime) m) = Ok s) /\
  (forall z Q m s', step L s (OpCorrect z Q (fnan : FTime) m) = Ok s' -> getStateTime s' = getStateTime s) /\
  (p_rewind (par s) = true -> forall u s', step L s (OpPredictU u (fnan : FTime)) = Ok s' -> getStateTime s' = fnan).
Proof.
  split; [|split; [|split; [|split]]]; cbn [step].
  - unfold predict_t. rewrite nan_lt_r. reflexivity.
  - intros Hr u. unfold predict_u. rewrite Hr, nan_le_r. reflexivity.
  - intros Hr Hp z Q m. unfold correct. rewrite Hr, Hp, nan_sub_l, nan_le_r. reflexivity.
  - intros z Q m s' Hst. unfold correct in Hst. destruct (p_rewind (par s)); simpl negb in Hst; cbv iota in Hst.
    + apply late_on_time in Hst as (Hc & _); [|apply nan_lt_l]. apply input_core_time in Hc as (Ht & _).
      unfold time_of, getStateTime in *. rewrite Ht. unfold time_after. simpl i_ctl. simpl i_ts. rewrite nan_sub_l, nan_lt_r. reflexivity.
    + destruct (p_past (par s) || _); [|injection Hst as <-; reflexivity].
      apply pruned_input_time in Hst as (Ht & _). rewrite Ht. unfold time_after. simpl i_ctl. simpl i_ts.
      rewrite nan_sub_l, nan_lt_r. reflexivity.
  - intros Hr u s' Hst. unfold predict_u in Hst. rewrite Hr in Hst. simpl negb in Hst. cbv iota in Hst.
    apply late_on_time in Hst as (Hc & _); [|apply nan_lt_l]. apply input_core_time in Hc as (Ht & _).
    unfold time_of, getStateTime in *. rewrite Ht. unfold time_after. simpl i_ctl. simpl i_ts. rewrite nan_sub_l, nan_add_r. reflexivity.
Qed.

(** ** C75: a filter whose time is NaN stays so: no predict or correct call repairs it *)
Definition any_direct {E : Env FTime} (o : Op (E := E)) : Prop :=
  match o with OpPredictT _ | OpPredictU _ _ | OpCorrect _ _ _ _ => True | _ => False end.
Theorem C75_nan_is_permanent {E : Env FTime} (L : Lib E) ops : forall (s s' : St E),
  getStateTime s = fnan -> Forall any_direct ops -> run L ops s = Ok s' -> getStateTime s' = fnan.
Proof.
  induction ops as [|o ops IH]; intros s s' Hn Ho Hr; unfold run in Hr; cbn [ofold] in Hr.
  - injection Hr as <-. auto.
  - apply obind_ok in Hr as (s1 & H1 & H2). inversion Ho as [|? ? Ho1 Ho2]; subst. apply IH in H2; auto. clear IH H2 Ho2.
    assert (Hin : forall i, input_core (core s) i = Ok (core s1) -> getStateTime s1 = fnan).
    { intros i Hc. apply input_core_time in Hc as (Ht & _). unfold time_of, getStateTime in *. rewrite Ht, Hn.
      unfold time_after. rewrite nan_add_l. destruct (i_ctl i); auto. destruct (tlt _ _); auto. }
    destruct o; simpl in Ho1; try contradiction; cbn [step] in H1.
    + unfold predict_t in H1. rewrite Hn, nan_lt_l in H1. injection H1 as <-. auto.
    + unfold predict_u in H1. destruct (p_rewind (par s)); simpl negb in H1; cbv iota in H1.
      * apply late_on_time in H1 as (Hc & _); [eauto|]. rewrite Hn. apply nan_lt_r.
      * rewrite Hn, nan_le_l in H1. injection H1 as <-. auto.
    + unfold correct in H1. destruct (p_rewind (par s)); simpl negb in H1; cbv iota in H1.
      * apply late_on_time in H1 as (Hc & _); [eauto|]. rewrite Hn. apply nan_lt_r.
      * destruct (p_past (par s) || _); [|injection H1 as <-; auto]. apply apply_prune_core in H1 as (Hc & _). eauto.
Qed.
Example C75_nonvacuous : exists s : St FE,
  run FLib [OpPredictU (fu 5) fnan; OpPredictU (fu 6) (fl 1 0); OpCorrect (fu 7) 2%Z (fl 2 0) (Some 0)] (fnew F_on fzero) = Ok s /\
  (is_nan (getStateTime s) = true /\ length (getState s) = 3).
Proof. okex. Qed.

(** ** C04 for correct(z, Q, t, m) in doubles *)
Theorem C04_doubles {E : Env FTime} (L : Lib E) (s : St E) (t : FTime) z Q m :
  finite t = true -> finite (getStateTime s) = true -> p_rewind (par s) = false -> p_past (par s) = false ->
  tlt t (getStateTime s) = true -> step L s (OpCorrect z Q t m) = Ok s.
Proof.
  intros Ft Fn Hr Hp Hlt. cbn [step]. unfold correct. rewrite Hr, Hp. cbn [negb orb].
  pose proof (fsub_nonneg t (getStateTime s) Ft Fn) as Hs. rewrite Hs, (proj2 FTime_cmp _ _ Hlt). reflexivity.
Qed.
