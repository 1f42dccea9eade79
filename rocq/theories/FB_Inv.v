(** Invariants over arbitrary call sequences, for every library behaviour (C30). *)
From Coq Require Import List Bool Arith Lia Sorted Permutation.
From Verif Require Import Outcome FB_Model FB_Time FB_Loops FB_Basic FB_Order FB_Spec.
Import ListNotations.

Lemma Forall_removelast {A} (P : A -> Prop) l : Forall P l -> Forall P (removelast l).
Proof.
  induction 1 as [|a l Ha Hl IH]; simpl; [constructor|]. destruct l; [constructor|]. constructor; auto.
Qed.

Section Low.
Context {TT : TimeOps} {E : Env TT} (L : Lib E) (Hsort : forall l i, In i (lib_sort L l) -> In i l).
Context (CI : Core E -> Prop) (FI : FState E -> Prop) (II : FInput E -> Prop).

(** what has to be shown of the parts *)
Record LowInv : Prop := {
  li_input : forall c i c', CI c -> II i -> input_core c i = Ok c' -> CI c';
  li_cur : forall c, CI c -> FI (c_cur c);
  li_prev : forall f, FI f -> II (f_prev f);
  li_set : forall c f, CI c -> FI f -> CI (set_cur c f);
  li_predict : forall c t, CI c -> II (mkInput vempty (s_Rc (c_sys c)) t true None)
}.

Definition AllInv (s : St E) : Prop :=
  CI (core s) /\ Forall FI (hist s) /\ Forall II (cq s) /\ Forall II (mq s).

(** conditions on the calls *)
Definition op_inv (o : Op (E := E)) : Prop :=
  match o with
  | OpInit x P t => forall c, CI c -> CI (set_ts (set_est c x P) t)
  | OpPredictU u t | OpEnqC u t => forall c, CI c -> II (mkInput u (s_Rc (c_sys c)) t true None)
  | OpCorrect z Q t m | OpEnqM z Q t m => II (mkInput z Q t false m)
  | OpSys f => forall c, CI c -> CI (set_sys c (f (c_sys c)))
  | OpMeas f => forall c, CI c -> CI (set_meas c (f (c_meas c)))
  | _ => True
  end.

Context (H : LowInv).

Lemma applyInput_inv s i s' : AllInv s -> II i -> applyInput s i = Ok s' -> AllInv s'.
Proof.
  intros (A & B & C & D) Hi Ha. apply applyInput_ok in Ha as (c & Hc & ->).
  split; [|split; [|split]]; simpl; auto.
  - apply (li_input H _ _ _ A Hi Hc).
  - destruct (p_rewind (par s)); auto. apply Forall_app. split; auto. constructor; auto. apply (li_cur H); auto.
Qed.

Lemma ofold_applyInput_inv l : forall s s', AllInv s -> Forall II l -> ofold applyInput l s = Ok s' -> AllInv s'.
Proof.
  induction l as [|i l IH]; intros s s' Hs Hl Ho; cbn [ofold] in Ho.
  - injection Ho as <-. auto.
  - apply obind_ok in Ho as (s1 & H1 & H2). inversion Hl; subst.
    apply (IH s1); auto. eapply applyInput_inv; eauto.
Qed.

Lemma pruneHistory_inv s s' : AllInv s -> pruneHistory L s = Ok s' -> AllInv s'.
Proof.
  intros (A & B & C & D) Hp. apply pruneHistory_frame in Hp as (_ & Hc & Hq1 & Hq2 & (d & Hd) & _).
  rewrite Hd in B. apply Forall_app in B as (B & _).
  split; [|split; [|split]]; congruence.
Qed.

Lemma applyBatch_inv s l s' : AllInv s -> Forall II l -> applyBatchInputs L s l = Ok s' -> AllInv s'.
Proof.
  intros Hs Hl Hb. apply applyBatchInputs_ok in Hb as (s1 & H1 & H2).
  eapply pruneHistory_inv; [|exact H2]. eapply ofold_applyInput_inv; eauto.
Qed.

Lemma rewind_loop_inv ts : forall base h post h' post',
  Forall FI h -> Forall FI post -> rewind_loop L ts base h post = Ok (h', post') ->
  Forall FI h' /\ Forall FI post'.
Proof.
  induction base as [|b IH]; intros h post h' post' Hh Hp Hr; simpl in Hr.
  - injection Hr as <- <-. auto.
  - destruct (nth_error h b) as [f|] eqn:En; [|discriminate]. destruct (tle ts (f_ts f)).
    + destruct h as [|f0 h0] eqn:Eh; [discriminate|]. rewrite <- Eh in *. clear Eh.
      destruct (pop_ok L (S b) (length h)); [|discriminate].
      apply IH in Hr; auto.
      * apply Forall_removelast; auto.
      * apply Forall_app; split; auto. constructor; auto. rewrite Forall_forall in Hh. apply Hh.
        eapply nth_error_In; eauto.
    + apply IH in Hr; auto.
Qed.

Lemma rewindHistory_inv s ts b s1 post : AllInv s -> rewindHistory L s ts = Ok (b, s1, post) ->
  AllInv s1 /\ Forall FI post.
Proof.
  intros Hs Hr. pose proof Hs as (A & B & C & D). unfold rewindHistory in Hr.
  destruct (tlt (f_ts (c_cur (core s))) ts); [injection Hr as <- <- <-; auto|].
  destruct (hist s) as [|fr h] eqn:Eh; [injection Hr as <- <- <-; auto|]. rewrite <- Eh in *.
  destruct (tlt (f_ts fr) ts); [|injection Hr as <- <- <-; auto].
  apply obind_ok in Hr as ([h1 p1] & H1 & H2).
  apply rewind_loop_inv in H1 as (Q1 & Q2); auto; [|constructor; auto; apply (li_cur H); auto].
  destruct (last_opt h1) as [back|] eqn:El; [|discriminate]. injection H2 as <- <- <-.
  assert (Hb : FI back).
  { unfold last_opt in El. apply nth_error_In in El. rewrite Forall_forall in Q1; auto. }
  split; [|apply Forall_rev; auto].
  split; [|split; [|split]]; simpl; auto.
  - apply (li_set H); auto.
  - apply Forall_removelast; auto.
Qed.

Lemma prevs_inv l : Forall FI l -> Forall II (map f_prev l).
Proof. intros Hl. apply Forall_map. eapply Forall_impl; [|exact Hl]. intros f. apply (li_prev H). Qed.

Lemma apply_late_inv s i s' : AllInv s -> II i -> apply_late L s i = Ok s' -> AllInv s'.
Proof.
  intros Hs Hi Ha. unfold apply_late in Ha. apply obind_ok in Ha as ([[b s1] post] & H1 & H2).
  assert (Hq : AllInv s1 /\ Forall FI post).
  { destruct (tlt (i_ts i) (getStateTime s)).
    - eapply rewindHistory_inv; eauto.
    - injection H1 as <- <- <-. auto. }
  destruct Hq as (Q1 & Q2). destruct (negb b); [injection H2 as <-; auto|].
  eapply applyBatch_inv; [exact Q1| |exact H2]. constructor; auto. apply prevs_inv; auto.
Qed.

Lemma prune_queue_incl o q (i : FInput E) : In i (prune_queue_loop o q) -> In i q.
Proof.
  induction q as [|j q IH]; simpl; auto. destruct (tlt (i_ts j) o); simpl; tauto.
Qed.

Lemma pruneQueue_incl s q (i : FInput E) : In i (pruneQueue s q) -> In i q.
Proof.
  unfold pruneQueue. destruct (p_rewind (par s)); auto. destruct (hist s); auto. apply prune_queue_incl.
Qed.

Lemma processQueues_inv s s' : AllInv s -> processQueues L s = Ok s' -> AllInv s'.
Proof.
  intros Hs Hp. unfold processQueues in Hp. simpl in Hp.
  remember (mkSt (par s) (core s) (hist s) (pruneQueue s (cq s)) (pruneQueue s (mq s))) as s0 eqn:E0.
  assert (Hs0 : AllInv s0).
  { destruct Hs as (A & B & C & D). subst s0. split; [|split; [|split]]; simpl; auto;
    rewrite Forall_forall in *; intros i Hi; apply pruneQueue_incl in Hi; auto. }
  apply obind_ok in Hp as ([s1 post] & H1 & H2).
  assert (Hq : AllInv s1 /\ Forall FI post).
  { destruct (p_rewind (par s)).
    - apply obind_ok in H1 as ([[b s2] post2] & H3 & H4). injection H4 as <- <-.
      eapply rewindHistory_inv; eauto.
    - injection H1 as <- <-. auto. }
  destruct Hq as (Q1 & Q2). apply obind_ok in H2 as (ins & H3 & H4). apply obind_ok in H4 as (s2 & H5 & H6).
  injection H6 as <-.
  assert (Hins : Forall II ins).
  { unfold std_sort in H3. destruct (swo_ok _); [|discriminate]. injection H3 as <-.
    apply Forall_forall. intros i Hi. apply Hsort in Hi.
    destruct Q1 as (_ & _ & C & D). rewrite Forall_forall in C, D.
    apply in_app_or in Hi as [Hi|Hi]; [|apply in_app_or in Hi as [Hi|Hi]; auto].
    apply prevs_inv in Q2. rewrite Forall_forall in Q2; auto. }
  apply applyBatch_inv in H5 as (A & B & C & D); auto.
  split; [|split; [|split]]; simpl; auto.
Qed.

Lemma step_inv s o s' : AllInv s -> op_inv o -> step L s o = Ok s' -> AllInv s'.
Proof.
  intros Hs Ho Hst. pose proof Hs as (A & B & C & D).
  assert (Hgo : forall i, II i -> (let* s1 := applyInput s i in pruneHistory L s1) = Ok s' -> AllInv s').
  { intros i Hi Ha. apply obind_ok in Ha as (s1 & H1 & H2). eapply pruneHistory_inv; [|exact H2].
    eapply applyInput_inv; eauto. }
  destruct o; simpl in Ho, Hst.
  - injection Hst as <-. unfold initialize. split; [|split; [|split]]; simpl; auto.
  - unfold predict_t in Hst. destruct (tlt _ _); [|injection Hst as <-; auto].
    eapply Hgo; [|exact Hst]. apply (li_predict H); auto.
  - unfold predict_u in Hst. destruct (negb _).
    + destruct (tle _ _); [|injection Hst as <-; auto]. eapply Hgo; [|exact Hst]. auto.
    + eapply apply_late_inv; [exact Hs| |exact Hst]. auto.
  - unfold correct in Hst. destruct (negb _).
    + destruct (_ || _); [|injection Hst as <-; auto]. eapply Hgo; [|exact Hst]. auto.
    + eapply apply_late_inv; [exact Hs| |exact Hst]. auto.
  - injection Hst as <-. split; [|split; [|split]]; simpl; auto. apply Forall_app; auto.
  - injection Hst as <-. split; [|split; [|split]]; simpl; auto. apply Forall_app; auto.
  - eapply processQueues_inv; eauto.
  - injection Hst as <-. split; [|split; [|split]]; simpl; auto.
  - injection Hst as <-. split; [|split; [|split]]; simpl; auto.
  - apply obind_ok in Hst as ([s1 b] & H1 & H2). injection H2 as <-.
    unfold revertToState in H1. apply obind_ok in H1 as ([[ok s2] post] & H3 & H4).
    apply rewindHistory_inv in H3 as (Q1 & _); auto. destruct Q1 as (A1 & B1 & C1 & D1).
    destruct ok; injection H4 as <- _; split; try split; try split; simpl; auto.
  - injection Hst as <-. split; [|split; [|split]]; simpl; auto.
  - injection Hst as <-. split; [|split; [|split]]; simpl; auto.
  - injection Hst as <-. split; [|split; [|split]]; simpl; auto.
Qed.

Lemma run_inv_all ops : forall s s', AllInv s -> Forall op_inv ops -> run L ops s = Ok s' -> AllInv s'.
Proof.
  induction ops as [|o ops IH]; intros s s' Hs Ho Hr; unfold run in Hr; cbn [ofold] in Hr.
  - injection Hr as <-. auto.
  - apply obind_ok in Hr as (s1 & H1 & H2). inversion Ho; subst.
    apply (IH s1); auto. eapply step_inv; eauto.
Qed.
End Low.

(** ** Estimate invariants *)
Section Est.
Context {TT : TimeOps} {E : Env TT} (L : Lib E) (Hsort : forall l i, In i (lib_sort L l) -> In i l).
(** [Good] is the property of the estimate; [SI]/[MI] the states of the model objects for which
    the algorithm preserves it, [MC] those of a measurement model whose covariance has just been
    set; [RcOk]/[QOk] the admissible covariances. *)
Context (Good : V E -> Mx E -> Prop) (SI : Sys E -> Prop) (MI MC : Meas E -> Prop)
        (RcOk QOk : Mx E -> Prop).

Record Preserved : Prop := {
  pv_empty : vsize (vempty : V E) = 0;
  pv_Rc : forall sy, SI sy -> RcOk (s_Rc sy);
  pv_setRc : forall sy R sy', SI sy -> RcOk R -> s_setRc sy R = Ok sy' -> SI sy';
  pv_predict : forall sy x P u dt sy' x' P', SI sy -> Good x P ->
    my_predict sy x P u dt = Ok (sy', x', P') -> SI sy' /\ Good x' P';
  pv_sproc : forall sy x d sy', SI sy -> s_proc sy x d = Ok sy' -> SI sy';
  pv_smake : forall sy x P x' P', SI sy -> Good x P -> s_make sy x P = Ok (x', P') -> Good x' P';
  pv_setCov : forall m Q m', MI m -> QOk Q -> m_setCov m Q = Ok m' -> MC m';
  pv_MC : forall m, MC m -> MI m;
  pv_correct : forall sy m x P z dt sy' m' x' P', SI sy -> MC m -> Good x P ->
    my_correct sy m x P z dt = Ok (sy', m', x', P') -> SI sy' /\ MI m' /\ Good x' P';
  pv_mproc : forall m x z m', MC m -> m_proc m x z = Ok m' -> MC m';
  pv_mmake : forall m x P x' P', MC m -> Good x P -> m_make m x P = Ok (x', P') -> Good x' P'
}.

(** conditions on the calls: initial estimates and covariances are admissible, and the user
    changes the model objects only within [SI]/[MI] *)
Definition call_ok (o : Op (E := E)) : Prop :=
  match o with
  | OpInit x P _ => Good x P
  | OpCorrect _ Q _ _ | OpEnqM _ Q _ _ => QOk Q
  | OpSys f => forall sy, SI sy -> SI (f sy)
  | OpMeas f => forall ms, Forall MI ms -> Forall MI (f ms)
  | _ => True
  end.

Context (H : Preserved).

Definition inp_good (i : FInput E) : Prop :=
  if i_ctl i then vsize (i_data i) = 0 \/ RcOk (i_cov i) else QOk (i_cov i).
Definition st_good (f : FState E) : Prop := Good (f_x f) (f_cov f) /\ inp_good (f_prev f).
Definition core_good (c : Core E) : Prop :=
  st_good (c_cur c) /\ SI (c_sys c) /\ Forall MI (c_meas c) /\ (vsize (c_pc c) = 0 \/ RcOk (c_pcc c)).

Lemma control_update_good sy x P d u R dt sy' x' P' : SI sy -> Good x P -> RcOk R ->
  control_update sy x P d u R dt = Ok (sy', x', P') -> SI sy' /\ Good x' P'.
Proof.
  intros Hs Hg HR Hc. unfold control_update in Hc. apply obind_ok in Hc as (st & _ & Hc).
  destruct (negb st).
  - apply obind_ok in Hc as (sy1 & H1 & H2). eapply (pv_predict H); [|exact Hg|exact H2].
    eapply (pv_setRc H); eauto.
  - apply obind_ok in Hc as (sy1 & H1 & H2). apply obind_ok in H2 as ([x1 P1] & H3 & H4).
    injection H4 as <- <- <-. pose proof (pv_sproc H _ _ _ _ Hs H1). split; auto.
    eapply (pv_smake H); [|exact Hg|exact H3]; auto.
Qed.

Lemma applyControl_good c i c' : core_good c -> i_ctl i = true -> inp_good i ->
  applyControlInput c i = Ok c' -> core_good c'.
Proof.
  intros ((Hg & Hp) & Hs & Hm & Hpc) Hc Hi Ha. unfold inp_good in Hi. rewrite Hc in Hi.
  unfold applyControlInput, choose_control in Ha.
  destruct (Nat.ltb_spec 0 (vsize (i_data i))) as [Hd|Hd].
  - assert (HR : RcOk (i_cov i)) by (destruct Hi; [lia|auto]).
    apply obind_ok in Ha as ([[sy x] P] & H1 & H2). injection H2 as <-.
    apply control_update_good in H1 as (A & B); auto. unfold core_good, st_good; simpl. repeat split; auto.
  - destruct (Nat.ltb_spec 0 (vsize (c_pc c))) as [Hz|Hz].
    + assert (HR : RcOk (c_pcc c)) by (destruct Hpc; [lia|auto]).
      apply obind_ok in Ha as ([[sy x] P] & H1 & H2). injection H2 as <-.
      apply control_update_good in H1 as (A & B); auto. unfold core_good, st_good; simpl. repeat split; auto.
    + apply obind_ok in Ha as ([[sy x] P] & H1 & H2). injection H2 as <-.
      apply control_update_good in H1 as (A & B); auto; [|apply (pv_Rc H); auto].
      unfold core_good, st_good; simpl. repeat split; auto.
Qed.

Lemma Forall_list_set {A} (P : A -> Prop) l k a : Forall P l -> P a -> Forall P (list_set l k a).
Proof. intros Hl Ha. revert k; induction Hl; intros [|k]; simpl; auto. Qed.

Lemma low_inv : LowInv core_good st_good inp_good.
Proof.
  constructor.
  - intros c i c' Hc Hi Hin. unfold input_core in Hin. apply obind_ok in Hin as (c1 & H1 & H2). injection H2 as <-.
    assert (Hc1 : core_good c1).
    { destruct (i_ctl i) eqn:Ec.
      - apply obind_ok in H1 as (c2 & H3 & H4). injection H4 as <-.
        apply applyControl_good in H3 as (A & B); auto. split; auto.
      - unfold applyMeasurementInput in H1. apply obind_ok in H1 as (c2 & H3 & H4).
        assert (Hc2 : core_good c2).
        { unfold advance_if_needed in H3. destruct (tlt tzero _); [|injection H3 as <-; auto].
          apply obind_ok in H3 as (c3 & H5 & H6). injection H6 as <-.
          apply applyControl_good in H5 as (A & B); auto; [split; auto|]. unfold inp_good; simpl. apply Hc. }
        destruct Hc2 as ((Hg & Hp) & Hs & Hm & Hpc).
        destruct (i_model i) as [k|]; [|discriminate]. destruct (nth_error (c_meas c2) k) as [m0|] eqn:En; [|discriminate].
        assert (Hm0 : MI m0) by (rewrite Forall_forall in Hm; apply Hm; eapply nth_error_In; eauto).
        apply obind_ok in H4 as ([[[sy m] x] P] & H5 & H6). injection H6 as <-.
        unfold inp_good in Hi. rewrite Ec in Hi.
        unfold meas_update in H5. apply obind_ok in H5 as (m1 & H6 & H7). apply obind_ok in H7 as (st & _ & H8).
        pose proof (pv_setCov H _ _ _ Hm0 Hi H6) as Hm1.
        assert (Hres : SI sy /\ MI m /\ Good x P).
        { destruct (negb st).
          - eapply (pv_correct H); [exact Hs|exact Hm1|exact Hg|exact H8].
          - apply obind_ok in H8 as (m2 & H9 & H10). apply obind_ok in H10 as ([x1 P1] & H11 & H12).
            injection H12 as <- <- <- <-. pose proof (pv_mproc H _ _ _ _ Hm1 H9).
            repeat split; auto; [apply (pv_MC H); auto|]. eapply (pv_mmake H); [|exact Hg|exact H11]; auto. }
        destruct Hres as (R1 & R2 & R3). unfold core_good, st_good; simpl. repeat split; auto.
        apply Forall_list_set; auto. }
    destruct Hc1 as ((Hg & _) & Hs & Hm & Hpc). unfold core_good, st_good; simpl. repeat split; auto.
  - intros c Hc; apply Hc.
  - intros f Hf; apply Hf.
  - intros c f (_ & Hs & Hm & Hpc) Hf. split; auto.
  - intros c t Hc. unfold inp_good; simpl. left. apply (pv_empty H).
Qed.

Lemma call_ok_inv o : call_ok o -> op_inv core_good inp_good o.
Proof.
  destruct o; simpl; auto.
  - intros Hg c ((_ & Hp) & Hs & Hm & Hpc). unfold core_good, st_good; simpl. repeat split; auto.
  - intros _ c (_ & Hs & _). unfold inp_good; simpl. right. apply (pv_Rc H); auto.
  - intros _ c (_ & Hs & _). unfold inp_good; simpl. right. apply (pv_Rc H); auto.
  - intros Hf c (Hst & Hs & Hm & Hpc). unfold core_good in *; simpl. auto.
  - intros Hf c (Hst & Hs & Hm & Hpc). unfold core_good in *; simpl. auto.
Qed.

Theorem invariant_reachable sy ms x P t ops s :
  SI sy -> Forall MI ms -> Good x P -> Forall call_ok ops ->
  run L ops (new_filter sy ms x P t) = Ok s ->
  Good (getState s) (getCovariance s) /\
  Forall (fun f => Good (f_x f) (f_cov f)) (hist s) /\ SI (c_sys (core s)) /\ Forall MI (c_meas (core s)).
Proof.
  intros Hs Hm Hg Ho Hr.
  assert (HI : AllInv core_good st_good inp_good s).
  { eapply (run_inv_all L Hsort core_good st_good inp_good low_inv); [| |exact Hr].
    - split; [|split; [|split]]; simpl; auto. unfold core_good, st_good; simpl. split; [|split; [|split]]; auto.
      + split; auto. unfold inp_good; simpl. left. apply (pv_empty H).
      + left. apply (pv_empty H).
    - eapply Forall_impl; [|exact Ho]. apply call_ok_inv. }
  destruct HI as (A & B & _). destruct A as ((A1 & _) & A2 & A3 & _).
  split; [exact A1|]. split; [|auto]. eapply Forall_impl; [|exact B]. intros f (Hf & _); exact Hf.
Qed.
End Est.
