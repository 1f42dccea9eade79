(** A filter that is initialised again behaves like a new one, if it has never been given a
    control (C02, positive part).  The proof also shows that the stale [prev_input] left behind
    by initialize() is never read. *)
From Coq Require Import List Bool Arith Lia.
From Verif Require Import Outcome FB_Model FB_Time FB_Loops FB_Basic FB_Order FB_Replay FB_Spec FB_Inv FB_Single.
Import ListNotations.

Section Fresh.
Context {TT : TimeOps} {E : Env TT} (L : Lib E) (HC : CmpOk TT).

Definition est_eq (f g : FState E) : Prop := f_x f = f_x g /\ f_cov f = f_cov g /\ f_ts f = f_ts g.
(** equal up to the input recorded in the oldest state and an unused covariance *)
Definition CSame (c k : Core E) : Prop :=
  est_eq (c_cur c) (c_cur k) /\ c_pc c = c_pc k /\ (vsize (c_pc c) = 0 \/ c_pcc c = c_pcc k)
  /\ c_sys c = c_sys k /\ c_meas c = c_meas k.
Definition hsame (h1 h2 : list (FState E)) : Prop :=
  (h1 = [] /\ h2 = []) \/ exists f1 f2 t, h1 = f1 :: t /\ h2 = f2 :: t /\ est_eq f1 f2.
Definition Same (s k : St E) : Prop :=
  par s = par k /\ cq s = cq k /\ mq s = mq k /\ CSame (core s) (core k) /\ hsame (hist s) (hist k)
  /\ (hist s <> [] -> c_cur (core s) = c_cur (core k)).

Lemma est_eq_refl f : est_eq f f. Proof. repeat split. Qed.

Lemma applyControl_same c k i : CSame c k ->
  orel (fun c' k' => CSame c' k' /\ f_ts (c_cur c') = f_ts (c_cur c)) (applyControlInput c i) (applyControlInput k i).
Proof.
  intros ((Ex & EP & Et) & Epc & Hpcc & Es & Em). unfold applyControlInput, choose_control.
  rewrite <- Epc, <- Es, <- Et.
  destruct (Nat.ltb_spec 0 (vsize (i_data i))); simpl.
  - rewrite <- Ex, <- EP, <- Es. destruct (control_update _ _ _ _ _ _ _) as [[[sy x] P]|]; simpl; auto.
    unfold CSame, est_eq; simpl. repeat split; auto.
  - destruct (Nat.ltb_spec 0 (vsize (c_pc c))); simpl.
    + destruct Hpcc as [|Hpcc]; [lia|]. rewrite <- Ex, <- EP, <- Es, <- Hpcc.
      destruct (control_update _ _ _ _ _ _ _) as [[[sy x] P]|]; simpl; auto.
      unfold CSame, est_eq; simpl. repeat split; auto.
    + rewrite <- Ex, <- EP, <- Es.
      destruct (control_update _ _ _ _ _ _ _) as [[[sy x] P]|]; simpl; auto.
      unfold CSame, est_eq; simpl. repeat split; auto.
Qed.

Lemma adv_same c k i i' : CSame c k -> i_data i = i_data i' -> i_ts i = i_ts i' -> i_ctl i = i_ctl i' ->
  (vsize (i_data i) = 0 \/ i_cov i = i_cov i') ->
  orel CSame (applyControlInput c i) (applyControlInput k i').
Proof.
  intros Hs Hd Ht Hct Hor.
  assert (Hk : applyControlInput k i' = applyControlInput k i).
  { unfold applyControlInput, choose_control. rewrite <- Hd, <- Ht.
    destruct (Nat.ltb_spec 0 (vsize (i_data i))); auto. destruct Hor as [|<-]; [lia|]. reflexivity. }
  rewrite Hk. pose proof (applyControl_same c k i Hs) as Ho.
  destruct (applyControlInput c i), (applyControlInput k i); simpl in *; tauto.
Qed.

Lemma CSame_ts c k t : CSame c k -> CSame (set_ts c t) (set_ts k t).
Proof. unfold CSame, est_eq; simpl. tauto. Qed.

Lemma input_core_same c k i : CSame c k ->
  orel (fun c' k' => CSame c' k' /\ c_cur c' = c_cur k') (input_core c i) (input_core k i).
Proof.
  intros Hs. unfold input_core.
  assert (Hgo : orel CSame
     (if i_ctl i then let* c1 := applyControlInput c i in Ok (set_ts c1 (tadd (f_ts (c_cur c1)) (tsub (i_ts i) (f_ts (c_cur c)))))
      else applyMeasurementInput c i)
     (if i_ctl i then let* c1 := applyControlInput k i in Ok (set_ts c1 (tadd (f_ts (c_cur c1)) (tsub (i_ts i) (f_ts (c_cur k)))))
      else applyMeasurementInput k i)).
  { pose proof Hs as ((_ & _ & Et) & _). rewrite <- Et. destruct (i_ctl i).
    - pose proof (applyControl_same c k i Hs) as Ho.
      destruct (applyControlInput c i) as [c1|], (applyControlInput k i) as [k1|]; simpl in *; auto; try contradiction.
      destruct Ho as (Ho & _). pose proof Ho as ((_ & _ & Et1) & _). rewrite <- Et1. apply CSame_ts; auto.
    - unfold applyMeasurementInput. rewrite <- Et.
      assert (Ha : orel CSame (advance_if_needed c i (tsub (i_ts i) (f_ts (c_cur c))))
                              (advance_if_needed k i (tsub (i_ts i) (f_ts (c_cur c))))).
      { unfold advance_if_needed. destruct (tlt tzero _); [|exact Hs].
        pose proof Hs as (_ & Epc & Hpcc & _).
        pose proof (adv_same c k (mkInput (c_pc c) (c_pcc c) (i_ts i) true None)
                                 (mkInput (c_pc k) (c_pcc k) (i_ts i) true None) Hs Epc eq_refl eq_refl Hpcc) as Ho.
        destruct (applyControlInput c _) as [c1|], (applyControlInput k _) as [k1|]; simpl in *; auto; try contradiction.
        pose proof Ho as ((_ & _ & Et1) & _). rewrite <- Et1. apply CSame_ts; auto. }
      destruct (advance_if_needed c i _) as [c1|], (advance_if_needed k i _) as [k1|]; simpl in *; auto; try contradiction.
      destruct Ha as ((Ex & EP & Et1) & Epc & Hpcc & Es & Em).
      destruct (i_model i) as [j|]; simpl; auto. rewrite <- Em. destruct (nth_error (c_meas c1) j) as [m0|]; simpl; auto.
      rewrite <- Es, <- Ex, <- EP. destruct (meas_update _ _ _ _ _ _ _) as [[[[sy m] x] P]|]; simpl; auto.
      unfold CSame, est_eq; simpl. rewrite Em. repeat split; auto. }
  destruct (if i_ctl i then _ else _) as [c1|], (if i_ctl i then _ else applyMeasurementInput k i) as [k1|];
    simpl in *; auto; try contradiction.
  destruct Hgo as ((Ex & EP & Et1) & Hr). split.
  - unfold CSame, est_eq; simpl. tauto.
  - rewrite Ex, EP, Et1. reflexivity.
Qed.

Lemma hsame_snoc h1 h2 f g : hsame h1 h2 -> est_eq f g -> (h1 <> [] -> f = g) -> hsame (h1 ++ [f]) (h2 ++ [g]).
Proof.
  intros [(-> & ->)|(f1 & f2 & t & -> & -> & He)] Hfg Hn; right.
  - exists f, g, []. auto.
  - rewrite <- Hn by discriminate. exists f1, f2, (t ++ [f]). auto.
Qed.

Lemma applyInput_same s k i : Same s k -> orel Same (applyInput s i) (applyInput k i).
Proof.
  intros (Hp & Hq1 & Hq2 & Hc & Hh & Hcur). unfold applyInput. rewrite <- Hp.
  pose proof (input_core_same _ _ i Hc) as Ho.
  destruct (input_core (core s) i) as [c1|], (input_core (core k) i) as [k1|]; simpl in *; auto; try contradiction.
  destruct Ho as (Hs1 & Hcc). unfold Same; simpl. repeat (split; [auto|]); auto.
  destruct (p_rewind (par s)); auto. apply hsame_snoc; auto. apply Hc.
Qed.

Lemma ofold_same l : forall s k, Same s k -> orel Same (ofold applyInput l s) (ofold applyInput l k).
Proof.
  induction l as [|i l IH]; intros s k Hs; cbn [ofold]; [exact Hs|].
  pose proof (applyInput_same s k i Hs) as Ho.
  destruct (applyInput s i), (applyInput k i); simpl in *; auto; try contradiction.
Qed.

Lemma hsame_length h1 h2 : hsame h1 h2 -> length h1 = length h2.
Proof. intros [(-> & ->)|(f1 & f2 & t & -> & -> & He)]; reflexivity. Qed.

Lemma hsame_nth h1 h2 b : hsame h1 h2 -> match nth_error h1 b, nth_error h2 b with
  | Some f, Some g => est_eq f g /\ (0 < b -> f = g) | None, None => True | _, _ => False end.
Proof.
  intros [(-> & ->)|(f1 & f2 & t & -> & -> & He)]; destruct b as [|b]; simpl; auto.
  - split; auto. lia.
  - destruct (nth_error t b); auto. split; auto. apply est_eq_refl.
Qed.

Lemma hsame_removelast h1 h2 : hsame h1 h2 -> hsame (removelast h1) (removelast h2).
Proof.
  intros [(-> & ->)|(f1 & f2 & t & -> & -> & He)]; [left; auto|].
  destruct t as [|f t]; [left; auto|]. right. exists f1, f2, (removelast (f :: t)). auto.
Qed.

Lemma hsame_nil h1 h2 : hsame h1 h2 -> (h1 = [] <-> h2 = []).
Proof. intros [(-> & ->)|(f1 & f2 & t & -> & -> & He)]; split; auto; discriminate. Qed.

Lemma prune_loop_same cutoff : forall base h1 h2, hsame h1 h2 ->
  orel hsame (prune_loop L cutoff base h1) (prune_loop L cutoff base h2).
Proof.
  induction base as [|b IH]; intros h1 h2 Hh; cbn [prune_loop]; [exact Hh|].
  pose proof (hsame_nth h1 h2 b Hh) as Hn.
  destruct (nth_error h1 b) as [f|], (nth_error h2 b) as [g|]; simpl; auto; try contradiction.
  destruct Hn as ((_ & _ & Et) & _). rewrite <- Et. destruct (tlt (f_ts f) cutoff); [|exact Hh].
  destruct Hh as [(-> & ->)|(f1 & f2 & t & -> & -> & He)]; [reflexivity|].
  simpl length. destruct (pop_ok L (S b) (S (length t))); simpl; auto.
  apply IH. apply (hsame_removelast (f1 :: t) (f2 :: t)). right. eauto 6.
Qed.

Lemma pruneHistory_same s k : Same s k -> orel Same (pruneHistory L s) (pruneHistory L k).
Proof.
  intros Hs. pose proof Hs as (Hp & Hq1 & Hq2 & Hc & Hh & Hcur). unfold pruneHistory. rewrite <- Hp.
  destruct (negb (p_rewind (par s))); [exact Hs|].
  pose proof Hc as ((_ & _ & Et) & _). rewrite <- Et, <- (hsame_length _ _ Hh).
  pose proof (prune_loop_same (tsub (f_ts (c_cur (core s))) (p_window (par s))) (length (hist s)) _ _ Hh) as Ho.
  destruct (prune_loop L _ _ (hist s)) as [h1|] eqn:E1, (prune_loop L _ _ (hist k)) as [h2|]; simpl in *; auto; try contradiction.
  unfold Same; simpl. repeat (split; [auto|]). intros Hne. apply Hcur. apply prune_loop_prefix in E1 as (d & Hd).
  rewrite Hd. destruct h1; [congruence|discriminate].
Qed.

Lemma applyBatch_same s k l : Same s k -> orel Same (applyBatchInputs L s l) (applyBatchInputs L k l).
Proof.
  intros Hs. unfold applyBatchInputs. pose proof (ofold_same l s k Hs) as Ho.
  destruct (ofold applyInput l s), (ofold applyInput l k); simpl in *; auto; try contradiction.
  apply pruneHistory_same; auto.
Qed.

(** the oldest state is never popped by a rewind to a later time *)
Lemma rewind_loop_same ts : forall base f1 f2 t post, est_eq f1 f2 -> tlt (f_ts f1) ts = true ->
  base <= S (length t) ->
  orel (fun r1 r2 => snd r1 = snd r2 /\ exists t', fst r1 = f1 :: t' /\ fst r2 = f2 :: t')
    (rewind_loop L ts base (f1 :: t) post) (rewind_loop L ts base (f2 :: t) post).
Proof.
  induction base as [|b IH]; intros f1 f2 t post He Hlt Hb; cbn [rewind_loop].
  - simpl. eauto.
  - pose proof He as (_ & _ & Et).
    assert (Hnot : tle ts (f_ts f1) = false) by (apply HC; auto).
    destruct b as [|b]; cbn [nth_error].
    + rewrite <- Et, Hnot. simpl. eauto.
    + destruct (nth_error t b) as [f|] eqn:En; [|reflexivity].
      assert (Hlen : b < length t) by (apply nth_error_Some; congruence).
      destruct (tle ts (f_ts f)).
      * simpl length. destruct (pop_ok L (S (S b)) (S (length t))); [|reflexivity].
        destruct t as [|g t]; [simpl in Hlen; lia|].
        change (removelast (f1 :: g :: t)) with (f1 :: removelast (g :: t)).
        change (removelast (f2 :: g :: t)) with (f2 :: removelast (g :: t)).
        apply IH; auto. rewrite removelast_firstn_eq, firstn_length. simpl length in *. lia.
      * apply IH; auto; lia.
Qed.

Lemma rewindHistory_same s k ts : Same s k ->
  orel (fun r1 r2 => fst (fst r1) = fst (fst r2) /\ Same (snd (fst r1)) (snd (fst r2)) /\ snd r1 = snd r2)
    (rewindHistory L s ts) (rewindHistory L k ts).
Proof.
  intros Hs. pose proof Hs as (Hp & Hq1 & Hq2 & Hc & Hh & Hcur). unfold rewindHistory.
  pose proof Hc as ((_ & _ & Et) & _). rewrite <- Et.
  destruct (tlt (f_ts (c_cur (core s))) ts); [simpl; auto|].
  destruct Hh as [(E1 & E2)|(f1 & f2 & t & E1 & E2 & He)]; rewrite E1, E2; [simpl; auto|].
  pose proof He as (_ & _ & Etf). rewrite <- Etf. destruct (tlt (f_ts f1) ts) eqn:Elt; [|simpl; auto].
  rewrite <- Hcur by (rewrite E1; discriminate).
  pose proof (rewind_loop_same ts (length (f1 :: t)) f1 f2 t [c_cur (core s)] He Elt (le_n _)) as Ho.
  change (length (f2 :: t)) with (length (f1 :: t)).
  destruct (rewind_loop L ts (length (f1 :: t)) (f1 :: t) _) as [[h1 p1]|],
           (rewind_loop L ts (length (f1 :: t)) (f2 :: t) _) as [[h2 p2]|]; simpl in *; auto; try contradiction.
  destruct Ho as (<- & t' & -> & ->).
  assert (Hl : exists b1 b2, last_opt (f1 :: t') = Some b1 /\ last_opt (f2 :: t') = Some b2 /\ est_eq b1 b2 /\
       (t' <> [] -> b1 = b2)).
  { destruct t' as [|g t'] using rev_ind.
    - exists f1, f2. repeat split; auto; try apply He; try congruence.
    - exists g, g. rewrite !app_comm_cons, !last_opt_app. repeat split; auto. }
  destruct Hl as (b1 & b2 & -> & -> & Hb & Hbe). cbn [orel fst snd]. split; [reflexivity|]. split; [|reflexivity].
  unfold Same; simpl. split; [auto|]. split; [auto|]. split; [auto|].
  split; [|split].
  - destruct Hc as (_ & Hc). unfold CSame; simpl. tauto.
  - destruct t' as [|g t']; [left; auto|right]. exists f1, f2, (removelast (g :: t')). auto.
  - intros Hne. apply Hbe. destruct t'; [contradiction|discriminate].
Qed.

Lemma apply_late_same s k i : Same s k -> orel Same (apply_late L s i) (apply_late L k i).
Proof.
  intros Hs. unfold apply_late. pose proof Hs as (_ & _ & _ & ((_ & _ & Et) & _) & _). unfold getStateTime.
  rewrite <- Et. destruct (tlt (i_ts i) (f_ts (c_cur (core s)))).
  - pose proof (rewindHistory_same s k (i_ts i) Hs) as Ho.
    destruct (rewindHistory L s _) as [[[b1 s1] p1]|], (rewindHistory L k _) as [[[b2 k1] p2]|]; simpl in *; auto; try contradiction.
    destruct Ho as (<- & Hs1 & <-). destruct (negb b1); [exact Hs1|]. apply applyBatch_same; auto.
  - cbn [obind negb]. apply applyBatch_same; auto.
Qed.

Lemma gonow s k i : Same s k ->
  orel Same (let* s1 := applyInput s i in pruneHistory L s1) (let* s1 := applyInput k i in pruneHistory L s1).
Proof.
  intros Hs. pose proof (applyInput_same s k i Hs) as Ho.
  destruct (applyInput s i), (applyInput k i); simpl in *; auto; try contradiction.
  apply pruneHistory_same; auto.
Qed.

Lemma pruneQueue_same s k q : Same s k -> pruneQueue s q = pruneQueue k q.
Proof.
  intros (Hp & _ & _ & _ & Hh & _). unfold pruneQueue. rewrite <- Hp. destruct (p_rewind (par s)); auto.
  destruct Hh as [(-> & ->)|(f1 & f2 & t & -> & -> & (_ & _ & Et))]; auto. rewrite Et. reflexivity.
Qed.

Lemma processQueues_same s k : Same s k -> orel Same (processQueues L s) (processQueues L k).
Proof.
  intros Hs. unfold processQueues. rewrite !(pruneQueue_same s k) by auto.
  pose proof Hs as (Hp & Hq1 & Hq2 & Hc & Hh & Hcur). rewrite <- Hq1, <- Hq2.
  remember (mkSt (par s) (core s) (hist s) (pruneQueue k (cq s)) (pruneQueue k (mq s))) as s0 eqn:Es.
  remember (mkSt (par k) (core k) (hist k) (pruneQueue k (cq s)) (pruneQueue k (mq s))) as k0 eqn:Ek.
  assert (Hs0 : Same s0 k0).
  { subst. unfold Same; simpl. repeat (split; [auto|]); auto. }
  cbv zeta. pose proof Hs0 as (Hp0 & Hc1 & Hc2 & _). rewrite <- Hc1, <- Hc2, <- Hp0.
  set (o := fold_left tmin (map i_ts (cq s0 ++ mq s0)) tinf).
  assert (Ho : orel (fun r1 r2 => Same (fst r1) (fst r2) /\ snd r1 = snd r2)
     (if p_rewind (par s0) then let* (_, s1, post) := rewindHistory L s0 o in Ok (s1, post) else Ok (s0, []))
     (if p_rewind (par s0) then let* (_, s1, post) := rewindHistory L k0 o in Ok (s1, post) else Ok (k0, []))).
  { destruct (p_rewind (par s0)); [|simpl; auto]. pose proof (rewindHistory_same s0 k0 o Hs0) as Ho.
    destruct (rewindHistory L s0 o) as [[[b1 s1] p1]|], (rewindHistory L k0 o) as [[[b2 k1] p2]|]; simpl in *; auto; try contradiction.
    tauto. }
  destruct (if p_rewind (par s0) then _ else Ok (s0, [])) as [[s1 p1]|],
           (if p_rewind (par s0) then _ else Ok (k0, [])) as [[k1 p2]|]; simpl in Ho; try contradiction; [|simpl; auto].
  destruct Ho as (Hs1 & <-). cbn [obind]. pose proof Hs1 as (_ & Q1 & Q2 & _). rewrite <- Q1, <- Q2.
  destruct (std_sort L (map f_prev p1 ++ cq s1 ++ mq s1)) as [ins|]; cbn [obind]; [|simpl; auto].
  pose proof (applyBatch_same s1 k1 ins Hs1) as Hb.
  destruct (applyBatchInputs L s1 ins) as [s2|], (applyBatchInputs L k1 ins) as [k2|]; simpl in *; auto; try contradiction.
  destruct Hb as (B1 & B2 & B3 & B4 & B5 & B6). unfold Same; simpl. auto 12.
Qed.

Lemma step_same s k o : Same s k -> orel Same (step L s o) (step L k o).
Proof.
  intros Hs. pose proof Hs as (Hp & Hq1 & Hq2 & Hc & Hh & Hcur).
  pose proof Hc as ((Ex & EP & Et) & Epc & Hpcc & Esy & Em).
  destruct o; simpl step.
  - simpl. unfold initialize, Same, CSame, est_eq, hsame; simpl. repeat split; auto. intros Hn; congruence.
  - unfold predict_t, getStateTime. rewrite <- Et, <- Esy. destruct (tlt _ _); [apply gonow; auto|exact Hs].
  - unfold predict_u, getStateTime. rewrite <- Et, <- Esy, <- Hp. destruct (negb _).
    + destruct (tle _ _); [apply gonow; auto|exact Hs].
    + apply apply_late_same; auto.
  - unfold correct, getStateTime. rewrite <- Et, <- Hp. destruct (negb _).
    + destruct (_ || _); [apply gonow; auto|exact Hs].
    + apply apply_late_same; auto.
  - unfold enqueueControl, Same; simpl. rewrite <- Esy, <- Hq1. auto 10.
  - unfold enqueueMeasurement, Same; simpl. rewrite <- Hq2. auto 10.
  - apply processQueues_same; auto.
  - unfold clearControlQueue, Same; simpl. auto 10.
  - unfold clearMeasurementQueue, Same; simpl. auto 10.
  - unfold revertToState. pose proof (rewindHistory_same s k t Hs) as Ho.
    destruct (rewindHistory L s t) as [[[b1 s1] p1]|], (rewindHistory L k t) as [[[b2 k1] p2]|]; simpl in *; auto; try contradiction.
    destruct Ho as (<- & Hs1 & <-). destruct b1; simpl; auto.
    destruct Hs1 as (B1 & B2 & B3 & B4 & B5 & B6). unfold Same; simpl. auto 12.
  - unfold Same; simpl. auto 10.
  - unfold Same, CSame; simpl. rewrite <- Esy. unfold est_eq. auto 20.
  - unfold Same, CSame; simpl. rewrite <- Em. unfold est_eq. auto 20.
Qed.

Lemma run_same ops : forall s k, Same s k -> orel Same (run L ops s) (run L ops k).
Proof.
  induction ops as [|o ops IH]; intros s k Hs; unfold run; cbn [ofold]; [exact Hs|].
  pose proof (step_same s k o Hs) as Ho.
  destruct (step L s o), (step L k o); simpl in *; auto; try contradiction. apply IH; auto.
Qed.

(** an object without stored control, initialised again, and a new object *)
Lemma reinit_same s x P t : c_pc (core s) = vempty -> vsize (vempty : V E) = 0 ->
  Same (initialize s x P t)
       (mkSt (par s) (core (new_filter (c_sys (core s)) (c_meas (core s)) x P t)) [] [] []).
Proof.
  intros Hp Hv. unfold Same, CSame, est_eq, hsame; simpl. rewrite Hp. repeat split; auto. intros Hn; congruence.
Qed.

Lemma Same_est s k : Same s k -> est s = est k.
Proof. intros (_ & _ & _ & ((A & B & C) & _) & _). unfold est, getState, getCovariance, getStateTime. congruence. Qed.

(** *** never given a control *)
Definition no_control (o : Op (E := E)) : Prop :=
  match o with OpPredictU u _ | OpEnqC u _ => vsize u = 0 | _ => True end.

Definition ni (i : FInput E) : Prop := i_ctl i = true -> vsize (i_data i) = 0.

Lemma no_control_inv (Hs : forall l i, In i (lib_sort L l) -> In i l) (Hv : vsize (vempty : V E) = 0) ops : forall s s',
  AllInv (fun c => c_pc c = vempty /\ ni (f_prev (c_cur c))) (fun f => ni (f_prev f)) ni s ->
  Forall no_control ops -> run L ops s = Ok s' ->
  AllInv (fun c => c_pc c = vempty /\ ni (f_prev (c_cur c))) (fun f => ni (f_prev f)) ni s'.
Proof.
  intros s s' Hi Ho Hr. eapply run_inv_all; [exact Hs| |exact Hi| |exact Hr].
  - constructor; simpl; auto.
    + intros c i c' (Hc & _) Hni Hin. pose proof Hin as Hin'.
      apply input_core_time in Hin' as (_ & Hp). rewrite Hp. split; auto.
      apply input_core_no_vec in Hin as (A & _); [congruence|].
      destruct (i_ctl i) eqn:Ec; [right; apply Hni; exact Ec|left; auto].
    + intros c (_ & H); exact H.
    + intros c f (H & _) Hf. auto.
    + intros c t0 _ _. exact Hv.
  - eapply Forall_impl; [|exact Ho]. intros o Hn. destruct o; simpl in *; auto; intros; intro; auto. discriminate. discriminate.
Qed.
End Fresh.
