(** Basic facts: frames, times after an input, and rejected inputs. *)
From Coq Require Import List Bool Arith Lia.
From Verif Require Import Outcome FB_Model FB_Time FB_Loops.
Import ListNotations.

Section Basic.
Context {TT : TimeOps} {E : Env TT} (L : Lib E).

Definition time_of (c : Core E) : TT := f_ts (c_cur c).

(** Time and prev_input after one input *)
Lemma applyControlInput_time (c : Core E) inp c' :
  applyControlInput c inp = Ok c' ->
  time_of c' = time_of c /\ f_prev (c_cur c') = f_prev (c_cur c) /\ c_meas c' = c_meas c.
Proof.
  unfold applyControlInput, choose_control. intros Hc.
  destruct (0 <? vsize (i_data inp)); [|destruct (0 <? vsize (c_pc c))];
  apply obind_ok in Hc as ([[sy x] P] & _ & He); injection He as <-; auto.
Qed.

Lemma advance_time (c : Core E) inp c' dt :
  advance_if_needed c inp dt = Ok c' ->
  time_of c' = (if tlt tzero dt then tadd (time_of c) dt else time_of c)
  /\ f_prev (c_cur c') = f_prev (c_cur c) /\ c_meas c' = c_meas c.
Proof.
  unfold advance_if_needed. destruct (tlt tzero dt); intros Ha.
  - apply obind_ok in Ha as (c1 & H1 & He). injection He as <-.
    apply applyControlInput_time in H1 as (Ht & Hp & Hm). unfold time_of in *. simpl.
    rewrite Ht. auto.
  - injection Ha as <-. auto.
Qed.

Lemma applyMeasurementInput_time (c : Core E) inp c' :
  applyMeasurementInput c inp = Ok c' ->
  time_of c' = (let dt := tsub (i_ts inp) (time_of c) in
                if tlt tzero dt then tadd (time_of c) dt else time_of c).
Proof.
  unfold applyMeasurementInput. intros Hm.
  apply obind_ok in Hm as (c1 & H1 & H2). apply advance_time in H1 as (Ht & _).
  destruct (i_model inp) as [k|]; [|discriminate].
  destruct (nth_error (c_meas c1) k) as [m0|]; [|discriminate].
  apply obind_ok in H2 as ([[[sy m] x] P] & _ & He). injection He as <-. exact Ht.
Qed.

Definition time_after (inp : FInput E) (now : TT) : TT :=
  let dt := tsub (i_ts inp) now in
  if i_ctl inp then tadd now dt else if tlt tzero dt then tadd now dt else now.

Lemma input_core_time (c : Core E) inp c' :
  input_core c inp = Ok c' ->
  time_of c' = time_after inp (time_of c) /\ f_prev (c_cur c') = inp.
Proof.
  unfold input_core, time_after. intros Hi.
  apply obind_ok in Hi as (c1 & H1 & He). injection He as <-. split; [|reflexivity].
  unfold time_of in *. simpl. destruct (i_ctl inp).
  - apply obind_ok in H1 as (c2 & H2 & He). injection He as <-. simpl.
    apply applyControlInput_time in H2 as (Ht & _). unfold time_of in Ht. rewrite Ht. reflexivity.
  - apply applyMeasurementInput_time in H1. exact H1.
Qed.

Lemma applyInput_ok (s : St E) inp s' :
  applyInput s inp = Ok s' ->
  exists c, input_core (core s) inp = Ok c
    /\ s' = mkSt (par s) c (if p_rewind (par s) then hist s ++ [c_cur (core s)] else hist s) (cq s) (mq s).
Proof.
  unfold applyInput. intros Ha. apply obind_ok in Ha as (c & Hc & He). injection He as <-. eauto.
Qed.

Lemma applyInput_frame (s : St E) inp s' : applyInput s inp = Ok s' ->
  par s' = par s /\ cq s' = cq s /\ mq s' = mq s.
Proof. intros Ha. apply applyInput_ok in Ha as (c & _ & ->). auto. Qed.

Lemma ofold_applyInput_frame l : forall (s s' : St E), ofold applyInput l s = Ok s' ->
  par s' = par s /\ cq s' = cq s /\ mq s' = mq s.
Proof.
  induction l as [|i l IH]; intros s s' Hf; cbn [ofold] in Hf.
  - injection Hf as <-. auto.
  - apply obind_ok in Hf as (s1 & H1 & H2). apply applyInput_frame in H1 as (A & B & C).
    apply IH in H2 as (A' & B' & C'). repeat split; congruence.
Qed.

(** The estimate after a batch is the fold of [input_core] *)
Lemma ofold_applyInput_core l : forall (s s' : St E), ofold applyInput l s = Ok s' ->
  ofold input_core l (core s) = Ok (core s').
Proof.
  induction l as [|i l IH]; intros s s' Hf; cbn [ofold] in *.
  - injection Hf as <-. reflexivity.
  - apply obind_ok in Hf as (s1 & H1 & H2). apply applyInput_ok in H1 as (c & Hc & ->).
    rewrite Hc. simpl. apply IH in H2. exact H2.
Qed.

Lemma ofold_core_applyInput l : forall (s : St E) c', ofold input_core l (core s) = Ok c' ->
  exists s', ofold applyInput l s = Ok s' /\ core s' = c' /\ par s' = par s.
Proof.
  induction l as [|i l IH]; intros s c' Hf; cbn [ofold] in *.
  - injection Hf as <-. eauto.
  - apply obind_ok in Hf as (c1 & H1 & H2). unfold applyInput at 1. rewrite H1. simpl.
    edestruct (IH (mkSt (par s) c1 (if p_rewind (par s) then hist s ++ [c_cur (core s)] else hist s)
      (cq s) (mq s))) as (s' & Hs & Hc & Hp); [exact H2|].
    exists s'. auto.
Qed.

Lemma applyBatchInputs_ok s l s' : applyBatchInputs L s l = Ok s' ->
  exists s1, ofold applyInput l s = Ok s1 /\ pruneHistory L s1 = Ok s'.
Proof. unfold applyBatchInputs. intros Hb. apply obind_ok in Hb. exact Hb. Qed.

Lemma applyBatchInputs_core s l s' : applyBatchInputs L s l = Ok s' ->
  ofold input_core l (core s) = Ok (core s') /\ par s' = par s /\ cq s' = cq s /\ mq s' = mq s.
Proof.
  intros Hb. apply applyBatchInputs_ok in Hb as (s1 & H1 & H2).
  pose proof (ofold_applyInput_core _ _ _ H1). apply ofold_applyInput_frame in H1 as (A & B & C).
  apply pruneHistory_frame in H2 as (P1 & P2 & P3 & P4 & _). repeat split; congruence.
Qed.

(** What the user can observe of the estimate *)
Definition est (s : St E) : V E * Mx E * TT := (getState s, getCovariance s, getStateTime s).
Definition est_c (c : Core E) : V E * Mx E * TT := (f_x (c_cur c), f_cov (c_cur c), f_ts (c_cur c)).

(** *** With exact time *)
Section Exact.
Context {fin : TT -> Prop} (Hx : ExactTime TT fin).

Lemma time_after_exact inp now : fin now -> fin (i_ts inp) ->
  time_after inp now = if i_ctl inp then i_ts inp else if tlt now (i_ts inp) then i_ts inp else now.
Proof.
  intros Hn Hi. unfold time_after. rewrite (et_add_sub _ _ Hx), (et_sub_pos _ _ Hx); auto.
Qed.

Lemma time_after_ge inp now : fin now -> fin (i_ts inp) -> tle now (i_ts inp) = true ->
  time_after inp now = i_ts inp.
Proof.
  intros Hn Hi Hle. rewrite time_after_exact; auto. destruct (i_ctl inp); auto.
  destruct (tlt now (i_ts inp)) eqn:Et; auto.
  apply (tlt_false_iff Hx) in Et; auto. apply (et_antisym _ _ Hx); auto.
Qed.

End Exact.
End Basic.
