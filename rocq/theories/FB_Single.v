(** Single calls: what each API call does to any filter state. *)
From Coq Require Import ZArith List Bool Arith Lia Sorted Permutation.
From Verif Require Import Outcome FB_Model FB_Time FB_Loops FB_Basic FB_Order FB_Spec.
Import ListNotations.

(** Comparison laws that doubles satisfy too, NaN and infinities included. *)
Definition CmpOk (TT : TimeOps) : Prop :=
  (forall a b : TT, tlt a b = true -> tle a b = true) /\
  (forall a b : TT, tlt a b = true -> tle b a = false).

Lemma CmpOk_asym {TT : TimeOps} (Hc : CmpOk TT) (a b : TT) : tlt a b = true -> tlt b a = false.
Proof.
  intros Hab. destruct (tlt b a) eqn:Eba; auto. destruct Hc as (H1 & H2).
  apply H2 in Hab. apply H1 in Eba. congruence.
Qed.

Lemma ZTime_cmp : CmpOk ZTime.
Proof.
  split; intros [x|] [y|]; simpl; try discriminate; auto; rewrite ?Z.ltb_lt, ?Z.leb_le, ?Z.leb_gt; lia.
Qed.

Section Effects.
Context {TT : TimeOps} {E : Env TT}.

Lemma control_update_effect (sy : Sys E) x P d u R dt sy' x' P' :
  control_update sy x P d u R dt = Ok (sy', x', P') <-> ControlEffect sy x P d u R dt sy' x' P'.
Proof.
  unfold control_update. split.
  - intros Hc. apply obind_ok in Hc as (st & Hst & Hc). destruct st; simpl in Hc.
    + apply obind_ok in Hc as (sy1 & H1 & H2). apply obind_ok in H2 as ([x1 P1] & H3 & H4).
      injection H4 as <- <- <-. apply CE_still; auto. split.
      * destruct (s_check sy); [auto|discriminate].
      * destruct (s_check sy); [auto|discriminate].
    + apply obind_ok in Hc as (sy1 & H1 & H2). eapply CE_moving; eauto.
      unfold moving_sys. destruct (s_check sy); auto.
  - intros [sy1 Hm H1 H2|(Hc & Hs) H1 H2].
    + assert (Hst : (if s_check sy then s_isStat sy x d else Ok false) = Ok false).
      { destruct Hm as [->|Hm]; auto. rewrite Hm. destruct (s_check sy); auto. }
      rewrite Hst. simpl. rewrite H1. simpl. exact H2.
    + rewrite Hc, Hs. simpl. rewrite H1. simpl. rewrite H2. reflexivity.
Qed.

Lemma meas_update_effect (sy : Sys E) m x P z Q dt sy' m' x' P' :
  meas_update sy m x P z Q dt = Ok (sy', m', x', P') <-> MeasEffect sy m x P z Q dt sy' m' x' P'.
Proof.
  unfold meas_update. split.
  - intros Hc. apply obind_ok in Hc as (m1 & H1 & Hc). apply obind_ok in Hc as (st & Hst & Hc).
    destruct st; simpl in Hc.
    + apply obind_ok in Hc as (m2 & H2 & H3). apply obind_ok in H3 as ([x1 P1] & H4 & H5).
      injection H5 as <- <- <- <-. eapply ME_still; eauto. split; destruct (m_check m1); auto; discriminate.
    + eapply ME_moving; eauto. unfold moving_meas. destruct (m_check m1); auto.
  - intros [m1 H1 Hm H2|m1 H1 (Hc & Hs) -> H2 H3]; rewrite H1; simpl.
    + assert (Hst : (if m_check m1 then m_isStat m1 x z else Ok false) = Ok false).
      { destruct Hm as [->|Hm]; auto. rewrite Hm. destruct (m_check m1); auto. }
      rewrite Hst. simpl. exact H2.
    + rewrite Hc, Hs. simpl. rewrite H2. simpl. rewrite H3. reflexivity.
Qed.

(** applyControlInput with a control vector, and without *)
Lemma applyControl_vec (c : Core E) i c' : 0 < vsize (i_data i) ->
  applyControlInput c i = Ok c' <->
  exists sy x P, ControlEffect (c_sys c) (f_x (c_cur c)) (f_cov (c_cur c)) (i_data i) (i_data i) (i_cov i)
      (tsub (i_ts i) (f_ts (c_cur c))) sy x P
    /\ c' = mkCore (mkFState x P (f_ts (c_cur c)) (f_prev (c_cur c))) (i_data i) (i_cov i) sy (c_meas c).
Proof.
  intros Hv. unfold applyControlInput, choose_control.
  destruct (Nat.ltb_spec 0 (vsize (i_data i))) as [_|]; [|lia]. simpl. split.
  - intros Ha. apply obind_ok in Ha as ([[sy x] P] & H1 & H2). injection H2 as <-.
    apply control_update_effect in H1. eauto 6.
  - intros (sy & x & P & He & ->). apply control_update_effect in He. rewrite He. reflexivity.
Qed.

Definition core_default (c : Core E) (u : V E) (R : Mx E) : Prop :=
  (0 < vsize (c_pc c) /\ u = c_pc c /\ R = c_pcc c) \/
  (vsize (c_pc c) = 0 /\ u = vzero (s_csize (c_sys c)) /\ R = s_Rc (c_sys c)).

Lemma applyControl_none (c : Core E) i c' :
  (vsize (i_data i) = 0 \/ (i_data i = c_pc c /\ i_cov i = c_pcc c)) ->
  applyControlInput c i = Ok c' <->
  exists u R sy x P, core_default c u R
    /\ ControlEffect (c_sys c) (f_x (c_cur c)) (f_cov (c_cur c)) (i_data i) u R
         (tsub (i_ts i) (f_ts (c_cur c))) sy x P
    /\ c' = mkCore (mkFState x P (f_ts (c_cur c)) (f_prev (c_cur c))) (c_pc c) (c_pcc c) sy (c_meas c).
Proof.
  intros Hor. unfold applyControlInput, choose_control, core_default.
  destruct (Nat.ltb_spec 0 (vsize (i_data i))) as [Hv|Hv].
  - destruct Hor as [|(Ed & Er)]; [lia|]. rewrite Ed, Er in *. simpl. split.
    + intros Ha. apply obind_ok in Ha as ([[sy x] P] & H1 & H2). injection H2 as <-.
      apply control_update_effect in H1. exists (c_pc c), (c_pcc c), sy, x, P. auto.
    + intros (u & R & sy & x & P & [(_ & -> & ->)|(Hz & _)] & He & ->); [|lia].
      apply control_update_effect in He. rewrite He. reflexivity.
  - destruct (Nat.ltb_spec 0 (vsize (c_pc c))) as [Hp|Hp]; split.
    + intros Ha. apply obind_ok in Ha as ([[sy x] P] & H1 & H2). injection H2 as <-.
      apply control_update_effect in H1. exists (c_pc c), (c_pcc c), sy, x, P. auto.
    + intros (u & R & sy & x & P & [(_ & -> & ->)|(Hz & _)] & He & ->); [|lia].
      apply control_update_effect in He. rewrite He. reflexivity.
    + intros Ha. apply obind_ok in Ha as ([[sy x] P] & H1 & H2). injection H2 as <-.
      apply control_update_effect in H1.
      exists (vzero (s_csize (c_sys c))), (s_Rc (c_sys c)), sy, x, P. split; [|auto]. right; repeat split; lia.
    + intros (u & R & sy & x & P & [(Hz & _)|(_ & -> & ->)] & He & ->); [lia|].
      apply control_update_effect in He. rewrite He. reflexivity.
Qed.

Lemma core_default_iff (s : St E) u R : core_default (core s) u R <-> default_control s u R.
Proof.
  split.
  - intros [(A & -> & ->)|(A & -> & ->)]; [apply DC_last|apply DC_null]; auto.
  - intros [A|A]; [left|right]; auto.
Qed.
End Effects.

Section Single.
Context {TT : TimeOps} {E : Env TT} (L : Lib E).

(** *** initialize *)
Lemma initialize_queues_noop s x P t : lib_sort L [] = [] ->
  processQueues L (initialize (E := E) s x P t) = Ok (initialize s x P t).
Proof.
  intros Hs. unfold processQueues, initialize, pruneQueue. simpl.
  destruct (p_rewind (par s)) eqn:Er; simpl.
  - unfold rewindHistory. simpl. destruct (tlt t tinf); simpl; unfold std_sort; simpl; rewrite Hs;
    unfold applyBatchInputs; simpl; unfold pruneHistory; simpl; rewrite Er; reflexivity.
  - unfold std_sort; simpl; rewrite Hs; unfold applyBatchInputs; simpl; unfold pruneHistory; simpl; rewrite Er; reflexivity.
Qed.

Lemma initialize_revert s x P t ts : CmpOk TT -> tle ts t = true ->
  revertToState L (initialize (E := E) s x P t) ts = Ok (initialize s x P t, false).
Proof.
  intros Hc Hle. unfold revertToState, rewindHistory, initialize. simpl.
  destruct (tlt t ts) eqn:Et; [rewrite (proj2 Hc _ _ Et) in Hle; discriminate|]. reflexivity.
Qed.

(** *** ignored calls *)
Lemma predict_t_ignored (s : St E) t : CmpOk TT -> tle t (getStateTime s) = true ->
  predict_t L s t = Ok s.
Proof.
  intros Hc Hle. unfold predict_t. destruct (tlt (getStateTime s) t) eqn:Et; auto.
  rewrite (proj2 Hc _ _ Et) in Hle. discriminate.
Qed.

Lemma predict_u_past_ignored (s : St E) u t : CmpOk TT -> p_rewind (par s) = false ->
  tlt t (getStateTime s) = true -> predict_u L s u t = Ok s.
Proof.
  intros Hc Hr Hlt. unfold predict_u. rewrite Hr. simpl. rewrite (proj2 Hc _ _ Hlt). reflexivity.
Qed.

Lemma correct_past_ignored {fin} (Hx : ExactTime TT fin) (s : St E) z Q t m :
  p_rewind (par s) = false -> p_past (par s) = false -> fin t -> fin (getStateTime s) ->
  tlt t (getStateTime s) = true -> correct L s z Q t m = Ok s.
Proof.
  intros Hr Hp Ft Fn Hlt. unfold correct. rewrite Hr, Hp. simpl.
  rewrite (et_sub_nonneg _ _ Hx), (et_lt_not_le _ _ Hx _ _ Hlt); auto.
Qed.

(** *** revert *)
Lemma rewind_false s ts s1 post : rewindHistory L s ts = Ok (false, s1, post) -> s1 = s /\ post = [].
Proof.
  unfold rewindHistory. destruct (tlt (f_ts (c_cur (core s))) ts); [discriminate|].
  destruct (hist s) as [|fr h] eqn:Eh; [intros [= <- <-]; auto|]. rewrite <- Eh.
  destruct (tlt (f_ts fr) ts); [|intros [= <- <-]; auto].
  intros Hr. apply obind_ok in Hr as ([h1 p1] & _ & H2). destruct (last_opt h1); discriminate.
Qed.

Lemma revert_false_noop s ts s' : revertToState L s ts = Ok (s', false) -> s' = s.
Proof.
  unfold revertToState. intros Hr. apply obind_ok in Hr as ([[ok s1] post] & H1 & H2).
  destruct ok; [discriminate|]. injection H2 as <-. apply rewind_false in H1. tauto.
Qed.

Lemma too_old_rejected s i : CmpOk TT -> tlt (i_ts i) (getStateTime s) = true ->
  (forall front, nth_error (hist s) 0 = Some front -> tlt (f_ts front) (i_ts i) = false) ->
  apply_late L s i = Ok s.
Proof.
  intros Hc Hlt Hf. unfold apply_late. rewrite Hlt. unfold rewindHistory.
  rewrite (CmpOk_asym Hc _ _ Hlt : tlt (f_ts (c_cur (core s))) (i_ts i) = false).
  destruct (hist s) as [|fr h]; [reflexivity|]. rewrite (Hf fr eq_refl). reflexivity.
Qed.

(** *** effects of accepted on-time calls *)
Definition on_time (s : St E) (t : TT) : Prop :=
  if p_rewind (par s) then tlt t (getStateTime s) = false else tle (getStateTime s) t = true.

Lemma apply_prune_core (s : St E) i s' : (let* s1 := applyInput s i in pruneHistory L s1) = Ok s' ->
  input_core (core s) i = Ok (core s') /\ par s' = par s /\ cq s' = cq s /\ mq s' = mq s.
Proof.
  intros Ha. apply obind_ok in Ha as (s1 & H1 & H2). apply applyInput_ok in H1 as (c & Hc & ->).
  apply pruneHistory_frame in H2 as (Q1 & Q2 & Q3 & Q4 & _). rewrite Q2. auto.
Qed.

Lemma late_on_time (s : St E) i s' : tlt (i_ts i) (getStateTime s) = false -> apply_late L s i = Ok s' ->
  input_core (core s) i = Ok (core s') /\ par s' = par s /\ cq s' = cq s /\ mq s' = mq s.
Proof.
  intros Hn Ha. unfold apply_late in Ha. rewrite Hn in Ha. cbn [obind negb map] in Ha.
  apply applyBatchInputs_core in Ha as (A & B). cbn [ofold] in A.
  apply obind_ok in A as (c1 & H1 & H2). injection H2 as H2. split; [congruence|exact B].
Qed.

Lemma predict_u_core s u t s' : on_time s t -> predict_u L s u t = Ok s' ->
  input_core (core s) (mkInput u (s_Rc (c_sys (core s))) t true None) = Ok (core s')
  /\ par s' = par s /\ cq s' = cq s /\ mq s' = mq s.
Proof.
  unfold on_time, predict_u. destruct (p_rewind (par s)); simpl; intros Ho Hp.
  - apply late_on_time in Hp; auto.
  - rewrite Ho in Hp. apply apply_prune_core in Hp; auto.
Qed.

Lemma correct_core {fin} (Hx : ExactTime TT fin) s z Q t m s' : fin t -> fin (getStateTime s) ->
  on_time s t -> correct L s z Q t m = Ok s' ->
  input_core (core s) (mkInput z Q t false m) = Ok (core s')
  /\ par s' = par s /\ cq s' = cq s /\ mq s' = mq s.
Proof.
  intros Ft Fn. unfold on_time, correct. destruct (p_rewind (par s)); simpl; intros Ho Hp.
  - apply late_on_time in Hp; auto.
  - rewrite (et_sub_nonneg _ _ Hx), Ho, orb_true_r in Hp; auto. apply apply_prune_core in Hp; auto.
Qed.

(** predict(t) *)
Lemma predict_t_effect s t s' : vsize (vempty : V E) = 0 -> tlt (getStateTime s) t = true ->
  predict_t L s t = Ok s' ->
  exists u R sy x P, default_control s u R
    /\ ControlEffect (c_sys (core s)) (getState s) (getCovariance s) vempty u R (tsub t (getStateTime s)) sy x P
    /\ est s' = (x, P, tadd (getStateTime s) (tsub t (getStateTime s)))
    /\ c_pc (core s') = c_pc (core s) /\ c_pcc (core s') = c_pcc (core s) /\ c_sys (core s') = sy
    /\ c_meas (core s') = c_meas (core s).
Proof.
  intros He Hlt Hp. unfold predict_t in Hp. rewrite Hlt in Hp. apply apply_prune_core in Hp as (Hc & _).
  unfold input_core in Hc. simpl i_ctl in Hc. cbn iota in Hc. apply obind_ok in Hc as (c1 & H1 & H2).
  apply obind_ok in H1 as (c2 & H3 & H4). apply applyControl_none in H3; [|left; exact He].
  destruct H3 as (u & R & sy & x & P & Hd & Hce & ->). exists u, R, sy, x, P.
  split; [apply core_default_iff; auto|]. split; [exact Hce|]. injection H4 as <-. injection H2 as H2.
  unfold est, getState, getCovariance, getStateTime. rewrite <- H2. simpl. auto.
Qed.

(** predict(u, t) on time *)
Lemma predict_u_effect s u t s' : 0 < vsize u -> on_time s t -> predict_u L s u t = Ok s' ->
  exists sy x P,
    ControlEffect (c_sys (core s)) (getState s) (getCovariance s) u u (s_Rc (c_sys (core s)))
      (tsub t (getStateTime s)) sy x P
    /\ est s' = (x, P, tadd (getStateTime s) (tsub t (getStateTime s)))
    /\ c_pc (core s') = u /\ c_pcc (core s') = s_Rc (c_sys (core s)) /\ c_sys (core s') = sy
    /\ c_meas (core s') = c_meas (core s).
Proof.
  intros Hv Ho Hp. apply predict_u_core in Hp as (Hc & _); auto.
  unfold input_core in Hc. simpl i_ctl in Hc. cbn iota in Hc. apply obind_ok in Hc as (c1 & H1 & H2).
  apply obind_ok in H1 as (c2 & H3 & H4). apply applyControl_vec in H3; [|exact Hv].
  destruct H3 as (sy & x & P & Hce & ->). exists sy, x, P. split; [exact Hce|].
  injection H4 as <-. injection H2 as H2.
  unfold est, getState, getCovariance, getStateTime. rewrite <- H2. simpl. auto.
Qed.

(** the correction phase *)
Lemma correct_effect_future {fin} (Hx : ExactTime TT fin) s z Q t m s' : fin t -> fin (getStateTime s) ->
  tlt (getStateTime s) t = true -> correct L s z Q t m = Ok s' ->
  exists u R sy1 x1 P1 k m0 sy2 m2 x2 P2,
    default_control s u R
    /\ ControlEffect (c_sys (core s)) (getState s) (getCovariance s) (c_pc (core s)) u R
         (tsub t (getStateTime s)) sy1 x1 P1
    /\ m = Some k /\ nth_error (c_meas (core s)) k = Some m0
    /\ MeasEffect sy1 m0 x1 P1 z Q (tsub t (getStateTime s)) sy2 m2 x2 P2
    /\ est s' = (x2, P2, t)
    /\ c_sys (core s') = sy2 /\ c_meas (core s') = list_set (c_meas (core s)) k m2.
Proof.
  intros Ft Fn Hlt Hp.
  assert (Ho : on_time s t).
  { unfold on_time. destruct (p_rewind (par s)); [apply (tlt_asym Hx)|apply (tlt_le Hx)]; auto. }
  apply (correct_core Hx) in Hp as (Hc & _); auto.
  unfold input_core in Hc. simpl i_ctl in Hc. cbn iota in Hc. apply obind_ok in Hc as (c1 & H1 & H2).
  unfold applyMeasurementInput in H1. simpl in H1. apply obind_ok in H1 as (c2 & H3 & H4).
  unfold advance_if_needed in H3. fold (getStateTime s) in H3.
  rewrite (et_sub_pos _ _ Hx), Hlt in H3; auto. apply obind_ok in H3 as (c3 & H5 & H6).
  apply applyControl_none in H5; [|right; auto]. destruct H5 as (u & R & sy1 & x1 & P1 & Hd & Hce & ->).
  injection H6 as <-. destruct m as [k|]; [|discriminate]. simpl in H4.
  destruct (nth_error (c_meas (core s)) k) as [m0|] eqn:En; [|discriminate].
  apply obind_ok in H4 as ([[[sy2 m2] x2] P2] & H7 & H8). apply meas_update_effect in H7.
  exists u, R, sy1, x1, P1, k, m0, sy2, m2, x2, P2.
  split; [apply core_default_iff; auto|]. split; [exact Hce|]. split; [reflexivity|]. split; [auto|].
  split; [exact H7|]. injection H8 as <-. injection H2 as H2.
  unfold est, getState, getCovariance. unfold getStateTime at 1. rewrite <- H2. simpl.
  split; [|auto]. f_equal. fold (getStateTime s). apply (et_add_sub _ _ Hx); auto.
Qed.

Lemma correct_effect_now {fin} (Hx : ExactTime TT fin) s z Q t m s' : fin t -> fin (getStateTime s) ->
  (p_rewind (par s) = false /\ p_past (par s) = true /\ tle t (getStateTime s) = true) \/ t = getStateTime s ->
  correct L s z Q t m = Ok s' ->
  exists k m0 sy2 m2 x2 P2,
    m = Some k /\ nth_error (c_meas (core s)) k = Some m0
    /\ MeasEffect (c_sys (core s)) m0 (getState s) (getCovariance s) z Q (tsub t (getStateTime s)) sy2 m2 x2 P2
    /\ est s' = (x2, P2, getStateTime s)
    /\ c_sys (core s') = sy2 /\ c_meas (core s') = list_set (c_meas (core s)) k m2.
Proof.
  intros Ft Fn Hor Hp.
  assert (Hle : tle t (getStateTime s) = true).
  { destruct Hor as [(_ & _ & Hle)| ->]; auto. apply (et_refl _ _ Hx); auto. }
  assert (Hc : input_core (core s) (mkInput z Q t false m) = Ok (core s')).
  { destruct Hor as [(Hr & Hpa & _)| ->].
    - unfold correct in Hp. rewrite Hr, Hpa in Hp. simpl in Hp. apply apply_prune_core in Hp. tauto.
    - apply (correct_core Hx) in Hp as (Hc & _); auto. unfold on_time. destruct (p_rewind (par s)).
      + apply (tlt_irrefl Hx); auto.
      + apply (et_refl _ _ Hx); auto. }
  unfold input_core in Hc. simpl i_ctl in Hc. cbn iota in Hc. apply obind_ok in Hc as (c1 & H1 & H2).
  unfold applyMeasurementInput in H1. simpl in H1. apply obind_ok in H1 as (c2 & H3 & H4).
  unfold advance_if_needed in H3. fold (getStateTime s) in H3.
  rewrite (et_sub_pos _ _ Hx) in H3; auto.
  assert (Hn : tlt (getStateTime s) t = false) by (apply (tlt_false_iff Hx); auto).
  rewrite Hn in H3. injection H3 as <-. destruct m as [k|]; [|discriminate]. simpl in H4.
  destruct (nth_error (c_meas (core s)) k) as [m0|] eqn:En; [|discriminate].
  apply obind_ok in H4 as ([[[sy2 m2] x2] P2] & H7 & H8). apply meas_update_effect in H7.
  exists k, m0, sy2, m2, x2, P2. split; [reflexivity|]. split; [auto|]. split; [exact H7|].
  injection H8 as <-. injection H2 as H2.
  unfold est, getState, getCovariance. unfold getStateTime. rewrite <- H2. auto.
Qed.

(** *** calls that leave the stored control alone *)
Lemma input_core_no_vec (c : Core E) i c' : i_ctl i = false \/ vsize (i_data i) = 0 ->
  input_core c i = Ok c' -> c_pc c' = c_pc c /\ c_pcc c' = c_pcc c.
Proof.
  intros Hor Hin. unfold input_core in Hin. apply obind_ok in Hin as (c1 & H1 & H2). injection H2 as <-. simpl.
  destruct (i_ctl i) eqn:Ec.
  - destruct Hor as [|Hz]; [discriminate|]. apply obind_ok in H1 as (c2 & H3 & H4). injection H4 as <-.
    apply applyControl_none in H3; [|left; auto]. destruct H3 as (? & ? & ? & ? & ? & _ & _ & ->). auto.
  - unfold applyMeasurementInput in H1. apply obind_ok in H1 as (c2 & H3 & H4).
    assert (Hadv : c_pc c2 = c_pc c /\ c_pcc c2 = c_pcc c).
    { unfold advance_if_needed in H3. destruct (tlt tzero _); [|injection H3 as <-; auto].
      apply obind_ok in H3 as (c3 & H5 & H6). injection H6 as <-.
      apply applyControl_none in H5; [|right; auto]. destruct H5 as (? & ? & ? & ? & ? & _ & _ & ->). auto. }
    destruct (i_model i) as [k|]; [|discriminate]. destruct (nth_error (c_meas c2) k); [|discriminate].
    apply obind_ok in H4 as ([[[? ?] ?] ?] & _ & H8). injection H8 as <-. exact Hadv.
Qed.

(** *** queues *)
Lemma processQueues_empties s s' : processQueues L s = Ok s' -> cq s' = [] /\ mq s' = [].
Proof.
  unfold processQueues. intros Hp. apply obind_ok in Hp as ([s1 post] & _ & H2).
  apply obind_ok in H2 as (ins & _ & H4). apply obind_ok in H4 as (s2 & _ & H6). injection H6 as <-. auto.
Qed.

Lemma processQueues_nothing s s' : lib_sort L [] = [] -> cq s = [] -> mq s = [] ->
  tlt (getStateTime s) tinf = true -> processQueues L s = Ok s' ->
  core s' = core s /\ par s' = par s /\ exists d, hist s = hist s' ++ d.
Proof.
  intros Hso H1 H2 Hi Hp. unfold processQueues in Hp. simpl in Hp. rewrite H1, H2 in Hp.
  assert (Hpq : pruneQueue s [] = []).
  { unfold pruneQueue. destruct (p_rewind (par s)); auto. destruct (hist s); auto. }
  rewrite Hpq in Hp. simpl in Hp. unfold getStateTime in Hi.
  assert (Hr : (if p_rewind (par s) then
      let* (_, s1, post) := rewindHistory L (mkSt (par s) (core s) (hist s) [] []) tinf in Ok (s1, post)
      else Ok (mkSt (par s) (core s) (hist s) [] [], [])) = Ok (mkSt (par s) (core s) (hist s) [] [], [])).
  { destruct (p_rewind (par s)); auto. unfold rewindHistory. simpl. rewrite Hi. reflexivity. }
  rewrite Hr in Hp. cbn [obind] in Hp. unfold std_sort in Hp. simpl in Hp. rewrite Hso in Hp.
  apply obind_ok in Hp as (s2 & H3 & H4). injection H4 as <-.
  apply applyBatchInputs_ok in H3 as (s3 & H5 & H6). simpl in H5. injection H5 as <-.
  apply pruneHistory_frame in H6 as (Q1 & Q2 & _ & _ & Q3 & _). simpl in *. auto.
Qed.

Lemma revert_char {fin} (Hlib : lib_strict L = false) (Hx : ExactTime TT fin) (s : St E) ts :
  fin ts -> TimeSorted (fin := fin) (states s) -> tle ts (getStateTime s) = true ->
  (exists front, nth_error (hist s) 0 = Some front /\ tlt (f_ts front) ts = true) ->
  exists h1 back post, hist s = h1 ++ back :: post
    /\ tlt (f_ts back) ts = true /\ Forall (fun f => tle ts (f_ts f) = true) post
    /\ revertToState L s ts = Ok (mkSt (par s) (set_cur (core s) back) h1 [] [], true).
Proof.
  intros Hts Hs Hle Hf. destruct (rewind_sorted L Hlib Hx s ts) as (h1 & back & post & A & B & C & D); auto.
  exists h1, back, post. repeat split; auto. unfold revertToState. rewrite D. reflexivity.
Qed.
End Single.
