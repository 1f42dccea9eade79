(** What calls do to the model objects, and where applied data comes from (C26 over whole call
    histories, C81, C82). *)
From Coq Require Import ZArith List Bool Arith Lia Sorted Permutation.
From Verif Require Import Outcome FB_Model FB_Time FB_Trace FB_Loops FB_Basic FB_Order FB_Replay
  FB_Spec FB_LogRun FB_Inv FB_Single FB_Queue FB_Fresh Props_FilterBase Props_Rewind Props_Queue.
Import ListNotations.

(** ** C26 in terms of the calls made: after predict(u, t1), and any number of calls that apply no
    other control, a measurement at t2 > getStateTime() first advances the estimate with [u] and the
    covariance the model had at predict(u, t1) ... *)
Theorem C26_last_control {TT} {E : Env TT} (L : Lib E) {fin} (s s1 s2 s3 : St E) u t1 ops z Q t2 m :
  ExactTime TT fin -> vsize (vempty : V E) = 0 -> 0 < vsize u -> on_time s t1 ->
  step L s (OpPredictU u t1) = Ok s1 -> quiet_run L ops s1 s2 ->
  fin t2 -> fin (getStateTime s2) -> tlt (getStateTime s2) t2 = true -> step L s2 (OpCorrect z Q t2 m) = Ok s3 ->
  exists sy1 x1 P1,
    ControlEffect (c_sys (core s2)) (getState s2) (getCovariance s2) u u (s_Rc (c_sys (core s)))
      (tsub t2 (getStateTime s2)) sy1 x1 P1 /\
  exists k m0 sy2 m2 x2 P2, m = Some k /\ nth_error (c_meas (core s2)) k = Some m0 /\
    MeasEffect sy1 m0 x1 P1 z Q (tsub t2 (getStateTime s2)) sy2 m2 x2 P2 /\ est s3 = (x2, P2, t2) /\
    c_sys (core s3) = sy2 /\ c_meas (core s3) = list_set (c_meas (core s2)) k m2.
Proof.
  intros Hx Hv Hu Ho H1 Hq Ft Fn Hlt H3. apply predict_u_effect in H1 as (sy & x & P & _ & _ & A & B & _); auto.
  apply (quiet_keeps L Hv) in Hq as (Q1 & Q2).
  apply (C26_future_measurement L s2 s3 z Q t2 m Hx Ft Fn Hlt) in H3 as (u' & R & sy1 & x1 & P1 & Hd & He & Hm).
  exists sy1, x1, P1. split; [|exact Hm]. rewrite Q1, A in He.
  destruct Hd as [Hd|Hd]; rewrite Q1, A in *; [|lia]. rewrite Q2, B in He. exact He.
Qed.
(** ... and with the null control and the model's covariance if there has been no control *)
Theorem C26_null_control {TT} {E : Env TT} (L : Lib E) {fin} sy0 ms x0 P0 t0 ops (s s' : St E) z Q t m :
  ExactTime TT fin -> (forall l i, In i (lib_sort L l) -> In i l) -> vsize (vempty : V E) = 0 ->
  Forall no_control ops -> run L ops (new_filter sy0 ms x0 P0 t0) = Ok s ->
  fin t -> fin (getStateTime s) -> tlt (getStateTime s) t = true -> step L s (OpCorrect z Q t m) = Ok s' ->
  exists sy1 x1 P1,
    ControlEffect (c_sys (core s)) (getState s) (getCovariance s) vempty
      (vzero (s_csize (c_sys (core s)))) (s_Rc (c_sys (core s))) (tsub t (getStateTime s)) sy1 x1 P1 /\
  exists k m0 sy2 m2 x2 P2, m = Some k /\ nth_error (c_meas (core s)) k = Some m0 /\
    MeasEffect sy1 m0 x1 P1 z Q (tsub t (getStateTime s)) sy2 m2 x2 P2 /\ est s' = (x2, P2, t) /\
    c_sys (core s') = sy2 /\ c_meas (core s') = list_set (c_meas (core s)) k m2.
Proof.
  intros Hx Hs Hv Hn H0 Ft Fn Hlt Hst.
  assert (HA : c_pc (core s) = vempty).
  { edestruct (no_control_inv L Hs Hv ops (new_filter sy0 ms x0 P0 t0) s) as ((A & _) & _); auto.
    repeat split; simpl; auto; intros _; auto. }
  apply (C26_future_measurement L s s' z Q t m Hx Ft Fn Hlt) in Hst as (u' & R & sy1 & x1 & P1 & Hd & He & Hm).
  exists sy1, x1, P1. split; [|exact Hm]. rewrite HA in He.
  destruct Hd as [Hd|Hd]; [rewrite HA in Hd; lia|exact He].
Qed.

(** ** C81: only the model objects that are named by an input are touched *)
Definition mentions {TT} {E : Env TT} (k : nat) (o : Op (E := E)) : Prop :=
  match o with
  | OpCorrect _ _ _ m | OpEnqM _ _ _ m => m = Some k
  | OpMeas _ => True
  | _ => False
  end.

Lemma list_set_other {A} (l : list A) i a j : i <> j -> nth_error (list_set l i a) j = nth_error l j.
Proof. revert i j. induction l as [|b l IH]; intros [|i] [|j] H; simpl; auto; try lia. Qed.
Lemma list_set_same {A} (l : list A) i a b : nth_error l i = Some b -> nth_error (list_set l i a) i = Some a.
Proof. revert i. induction l as [|c l IH]; intros [|i] H; simpl in *; try discriminate; auto. Qed.

Lemma applyControl_meas {TT} {E : Env TT} (c c' : Core E) i : applyControlInput c i = Ok c' -> c_meas c' = c_meas c.
Proof.
  unfold applyControlInput, choose_control. intros H.
  destruct (0 <? vsize (i_data i)); [|destruct (0 <? vsize (c_pc c))];
    apply obind_ok in H as ([[sy x] P] & _ & H); injection H as <-; reflexivity.
Qed.
Lemma input_core_meas {TT} {E : Env TT} (c c' : Core E) i k : input_core c i = Ok c' -> (i_ctl i = false -> i_model i <> Some k) ->
  nth_error (c_meas c') k = nth_error (c_meas c) k.
Proof.
  intros H Hk. unfold input_core in H. apply obind_ok in H as (c1 & H1 & H2). injection H2 as <-. simpl.
  destruct (i_ctl i).
  - apply obind_ok in H1 as (c2 & H3 & H4). injection H4 as <-. simpl. apply applyControl_meas in H3. congruence.
  - specialize (Hk eq_refl). unfold applyMeasurementInput in H1. apply obind_ok in H1 as (c2 & H3 & H4).
    assert (Hm : c_meas c2 = c_meas c).
    { unfold advance_if_needed in H3. destruct (tlt tzero _); [|injection H3 as <-; auto].
      apply obind_ok in H3 as (c3 & H5 & H6). injection H6 as <-. apply applyControl_meas in H5. exact H5. }
    destruct (i_model i) as [j|]; [|discriminate]. destruct (nth_error (c_meas c2) j); [|discriminate].
    apply obind_ok in H4 as ([[[? mm] ?] ?] & _ & H8). injection H8 as <-. simpl. rewrite <- Hm. apply list_set_other. congruence.
Qed.

(** measurement model k is in the state the user left it in as long as no input names it: no
    prediction, queue, rewind or correction with another model touches it *)
Theorem C81_unnamed_model_untouched {TT} {E : Env TT} (L : Lib E) sy ms x P t ops (s : St E) k :
  (forall l i, In i (lib_sort L l) -> In i l) ->
  Forall (fun o => ~ mentions k o) ops -> run L ops (new_filter sy ms x P t) = Ok s ->
  nth_error (c_meas (core s)) k = nth_error ms k.
Proof.
  intros Hs Ho Hr.
  set (II := fun i : FInput E => i_ctl i = false -> i_model i <> Some k).
  assert (HI : AllInv (fun c : Core E => nth_error (c_meas c) k = nth_error ms k /\ II (f_prev (c_cur c))) (fun f => II (f_prev f)) II s).
  { eapply run_inv_all; [exact Hs| | | |exact Hr].
    - constructor; simpl; auto.
      + intros c i c' (A & B) Hi Hin. pose proof Hin as Hp. apply input_core_time in Hp as (_ & Hp). rewrite Hp.
        split; auto. rewrite <- A. eapply input_core_meas; eauto.
      + intros c (_ & H); exact H.
      + intros c f (A & _) Hf; auto.
      + intros c t0 _. unfold II; simpl. discriminate.
    - repeat split; simpl; auto. unfold II; simpl. discriminate.
    - eapply Forall_impl; [|exact Ho]. intros o Hn. destruct o; simpl in *; auto; unfold II; simpl; intros; try discriminate; auto.
      contradiction Hn. exact I. }
  destruct HI as ((A & _) & _). exact A.
Qed.
(** predict(u, t) on time leaves the system model as the algorithm left it and no measurement model
    changed; correct(z, Q, t, k) puts the outcome of the update in model k and leaves the others *)
Theorem C81_correct_updates_one_model {TT} {E : Env TT} (L : Lib E) {fin} (s s' : St E) z Q t m :
  ExactTime TT fin -> fin t -> fin (getStateTime s) -> tle (getStateTime s) t = true ->
  step L s (OpCorrect z Q t m) = Ok s' ->
  exists k m0 sy1 x1 P1 sy2 m2 x2 P2, m = Some k /\ nth_error (c_meas (core s)) k = Some m0 /\
    MeasEffect sy1 m0 x1 P1 z Q (tsub t (getStateTime s)) sy2 m2 x2 P2 /\ c_sys (core s') = sy2 /\
    nth_error (c_meas (core s')) k = Some m2 /\
    (forall j, j <> k -> nth_error (c_meas (core s')) j = nth_error (c_meas (core s)) j).
Proof.
  intros Hx Ft Fn Hle Hst. destruct (tlt (getStateTime s) t) eqn:Hlt.
  - apply (C26_future_measurement L s s' z Q t m Hx Ft Fn Hlt) in Hst
      as (u & R & sy1 & x1 & P1 & _ & _ & k & m0 & sy2 & m2 & x2 & P2 & A & B & C & _ & D & F).
    exists k, m0, sy1, x1, P1, sy2, m2, x2, P2. rewrite F. do 4 (split; auto). split; [eapply list_set_same; eauto|].
    intros j Hj. apply list_set_other; auto.
  - assert (t = getStateTime s) as ->.
    { apply (tlt_false_iff Hx) in Hlt; auto. apply (et_antisym _ _ Hx); auto. }
    apply (C26_present_or_past_measurement L s s' z Q _ m Hx Ft Fn) in Hst
      as (k & m0 & sy2 & m2 & x2 & P2 & A & B & C & _ & D & F); auto.
    do 5 eexists. exists sy2, m2, x2, P2. rewrite F. split; [exact A|]. split; [exact B|]. split; [exact C|]. split; auto.
    split; [eapply list_set_same; eauto|]. intros j Hj. apply list_set_other; auto.
Qed.
Theorem C81_predict_touches_no_measurement_model {TT} {E : Env TT} (L : Lib E) (s s' : St E) u t :
  0 < vsize u -> on_time s t -> step L s (OpPredictU u t) = Ok s' ->
  c_meas (core s') = c_meas (core s) /\
  exists sy x P, ControlEffect (c_sys (core s)) (getState s) (getCovariance s) u u (s_Rc (c_sys (core s)))
      (tsub t (getStateTime s)) sy x P /\ c_sys (core s') = sy.
Proof. intros Hu Ho Hst. apply predict_u_effect in Hst as (sy & x & P & A & B & _ & _ & C & D); eauto 8. Qed.
Example C81_nonvacuous : exists s : St ZE,
  run GL [OpPredictU (zd [5%Z]) (zt 1); OpCorrect (zd [1%Z]) 2%Z (zt 3) (Some 1); OpEnqM (zd [1%Z]) 4%Z (zt 5) (Some 1); OpProcess]
    (new_filter (E := ZE) zsys [8%Z; 9%Z] (zd []) 0%Z (zt 0)) = Ok s /\ c_meas (core s) = [8%Z; 4%Z].
Proof. okex. Qed.

(** ** C82: nothing is applied that the user did not supply.  [TraceEnv] records what the algorithm is
    asked to do; every prediction uses a control vector that was given in some call, or the null
    control, and every correction a measurement together with the covariance it was given with. *)
Definition gave_control {TT} (ops : list (Op (E := TraceEnv TT))) (u : list (tok TT)) : Prop :=
  exists t, In (OpPredictU (E := TraceEnv TT) u t) ops \/ In (OpEnqC (E := TraceEnv TT) u t) ops.
Definition gave_measurement {TT} (ops : list (Op (E := TraceEnv TT))) (z : list (tok TT)) (Q : Z) : Prop :=
  exists t m, In (OpCorrect (E := TraceEnv TT) z Q t m) ops \/ In (OpEnqM (E := TraceEnv TT) z Q t m) ops.
Definition accounted {TT} (ops : list (Op (E := TraceEnv TT))) (k : tok TT) : Prop :=
  match k with
  | TPred u _ _ => (exists u', gave_control ops u' /\ u = nums u') \/ Forall (fun z => z = 0%Z) u
  | TCorr z Q _ => exists z', gave_measurement ops z' Q /\ z = nums z'
  | _ => True
  end.
Definition no_init {TT} {E : Env TT} (o : Op (E := E)) : Prop :=
  match o with OpInit _ _ _ => False | _ => True end.

Lemma nums_zeros TT n : Forall (fun z => z = 0%Z) (nums (repeat (TNum 0%Z : tok TT) n)).
Proof. induction n; simpl; auto. Qed.

Theorem C82_nothing_invented {TT} (L : Lib (TraceEnv TT)) (sy : Sys (TraceEnv TT)) ms t0 ops (s : St (TraceEnv TT)) :
  (forall l i, In i (lib_sort L l) -> In i l) -> Forall no_init ops ->
  run L ops (new_filter (E := TraceEnv TT) sy ms [] 0%Z t0) = Ok s ->
  Forall (accounted ops) (getState s).
Proof.
  intros Hs Hni Hr.
  set (II := fun i : FInput (TraceEnv TT) =>
     if i_ctl i then i_data i = [] \/ gave_control ops (i_data i) else gave_measurement ops (i_data i) (i_cov i)).
  set (FI := fun f : FState (TraceEnv TT) => Forall (accounted ops) (f_x f : list (tok TT)) /\ II (f_prev f)).
  assert (HI : AllInv (fun c : Core (TraceEnv TT) => FI (c_cur c) /\ ((c_pc c : list (tok TT)) = [] \/ gave_control ops (c_pc c))) FI II s).
  { assert (Hctl : forall (c c' : Core (TraceEnv TT)) (i : FInput (TraceEnv TT)), FI (c_cur c) ->
      ((c_pc c : list (tok TT)) = [] \/ gave_control ops (c_pc c)) -> ((i_data i : list (tok TT)) = [] \/ gave_control ops (i_data i)) ->
      applyControlInput c i = Ok c' -> FI (c_cur c') /\ ((c_pc c' : list (tok TT)) = [] \/ gave_control ops (c_pc c'))).
    { intros c c' i Hf Hp Hi Ha. unfold applyControlInput in Ha.
      assert (Hch : exists u cov c2, choose_control c i = ((u, cov), c2) /\ c_cur c2 = c_cur c /\
         ((c_pc c2 : list (tok TT)) = [] \/ gave_control ops (c_pc c2)) /\ (gave_control ops u \/ Forall (fun z => z = 0%Z) (nums u))).
      { unfold choose_control. destruct (Nat.ltb_spec 0 (vsize (i_data i))) as [Hv|Hv].
        - assert (gave_control ops (i_data i)) by (destruct Hi as [Hi|Hi]; auto; rewrite Hi in Hv; simpl in Hv; lia).
          do 3 eexists. split; [reflexivity|]. simpl. auto.
        - destruct (Nat.ltb_spec 0 (vsize (c_pc c))) as [Hq|Hq]; do 3 eexists; (split; [reflexivity|]).
          + split; auto. split; auto. left. destruct Hp as [Hp|Hp]; auto. rewrite Hp in Hq; simpl in Hq; lia.
          + split; auto. split; auto. right. apply nums_zeros. }
      destruct Hch as (u & cov & c2 & E1 & E2 & Hp2 & Hu). rewrite E1 in Ha. clear E1.
      apply obind_ok in Ha as ([[sy1 x1] P1] & H1 & H2). injection H2 as <-. simpl. split; [|exact Hp2].
      destruct Hf as (Hx & Hprev). split; simpl; [|rewrite E2; exact Hprev].
      unfold control_update in H1. apply obind_ok in H1 as (st & _ & H1). destruct (negb st); simpl in H1; injection H1 as <- <- <-.
      - rewrite E2. apply Forall_app. split; [exact Hx|]. constructor; [|constructor]. simpl. destruct Hu; eauto.
      - rewrite E2. apply Forall_app. split; [exact Hx|]. repeat constructor. }
    eapply run_inv_all; [exact Hs| | | |exact Hr].
    - constructor.
      + intros c i c' (Hf & Hp) Hi Hin. pose proof Hin as Hpv. apply input_core_time in Hpv as (_ & Hpv).
        unfold input_core in Hin. apply obind_ok in Hin as (c1 & H1 & H2). injection H2 as <-.
        assert (Hgo : Forall (accounted ops) (f_x (c_cur c1) : list (tok TT)) /\ ((c_pc c1 : list (tok TT)) = [] \/ gave_control ops (c_pc c1))).
        { unfold II in Hi. destruct (i_ctl i) eqn:Ec.
          - apply obind_ok in H1 as (c2 & H3 & H4). injection H4 as <-. simpl.
            apply Hctl in H3 as ((A & _) & B); auto.
          - unfold applyMeasurementInput in H1. apply obind_ok in H1 as (c2 & H3 & H4).
            assert (Hadv : FI (c_cur c2) /\ ((c_pc c2 : list (tok TT)) = [] \/ gave_control ops (c_pc c2))).
            { unfold advance_if_needed in H3. destruct (tlt tzero _); [|injection H3 as <-; auto].
              apply obind_ok in H3 as (c3 & H5 & H6). injection H6 as <-. simpl. apply Hctl in H5 as (A & B); auto. }
            destruct Hadv as ((Hx2 & _) & Hp2).
            destruct (i_model i) as [k|]; [|discriminate]. destruct (nth_error (c_meas c2) k); [|discriminate].
            apply obind_ok in H4 as ([[[sy2 m2] x2] P2] & H7 & H8). injection H8 as <-. simpl.
            unfold meas_update in H7. simpl in H7. injection H7 as <- <- <- <-. split; [|exact Hp2].
            apply Forall_app. split; [exact Hx2|]. constructor; [|constructor]. simpl. eauto. }
        split; [|exact (proj2 Hgo)]. split; [exact (proj1 Hgo)|]. exact Hi.
      + intros c (H & _); exact H.
      + intros f (_ & H); exact H.
      + intros c f (_ & Hp) Hf. split; auto.
      + intros c t _. unfold II; simpl. auto.
    - split; [|split; [|split]]; simpl; auto. split; [|auto]. split; simpl; [constructor|]. unfold II; simpl; auto.
    - apply Forall_forall. intros o Ho. rewrite Forall_forall in Hni. specialize (Hni o Ho).
      destruct o; simpl in *; auto; unfold II; simpl; intros; try contradiction.
      + right. exists t. auto.
      + exists t, m. auto.
      + right. exists t. auto.
      + exists t, m. auto. }
  destruct HI as (((A & _) & _) & _). exact A.
Qed.
Example C82_nonvacuous : exists s : St ZE,
  run GL [OpParams (mkParams true (zt 100) false); OpPredictU (zd [5%Z]) (zt 4); OpCorrect (zd [1%Z]) 2%Z (zt 3) (Some 0); OpEnqC (zd [6%Z]) (zt 2); OpProcess]
    (new_filter (E := ZE) zsys [8%Z] (zd []) 0%Z (zt 0)) = Ok s /\
  getState s = [TPred [6%Z] 7%Z (zt 2); TPred [6%Z] 7%Z (zt 1); TCorr [1%Z] 2%Z (zt 1); TPred [5%Z] 7%Z (zt 1)].
Proof. okex. Qed.
