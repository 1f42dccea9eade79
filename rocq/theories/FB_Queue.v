(** Queued inputs newer than the estimate are processed in time order (C18). *)
From Coq Require Import List Bool Arith Lia Sorted Permutation.
From Verif Require Import Outcome FB_Model FB_Time FB_Loops FB_Basic FB_Order FB_Replay FB_Spec FB_LogRun FB_Single.
Import ListNotations.

(** The control covariance of the system model is changed only by setControlCovariance. *)
Record RcStable {TT : TimeOps} (E : Env TT) : Prop := {
  rs_set : forall (sy : Sys E) R sy', s_setRc sy R = Ok sy' -> s_Rc sy' = R;
  rs_pred : forall (sy : Sys E) x P u dt sy' x' P', my_predict sy x P u dt = Ok (sy', x', P') -> s_Rc sy' = s_Rc sy;
  rs_proc : forall (sy : Sys E) x d sy', s_proc sy x d = Ok sy' -> s_Rc sy' = s_Rc sy;
  rs_corr : forall (sy : Sys E) m x P z dt sy' m' x' P', my_correct sy m x P z dt = Ok (sy', m', x', P') -> s_Rc sy' = s_Rc sy
}.

Section Queue.
Context {TT : TimeOps} {E : Env TT} (L : Lib E) (Hlib : lib_strict L = false) (Hsort : SortOk L).
Context {fin : TT -> Prop} (Hx : ExactTime TT fin) (HR : RcStable E).

Definition rc_ok (R : Mx E) (c : Core E) : Prop :=
  s_Rc (c_sys c) = R /\ (vsize (c_pc c) = 0 \/ c_pcc c = R).

Lemma ControlEffect_Rc (sy : Sys E) x P d u R dt sy' x' P' :
  ControlEffect sy x P d u R dt sy' x' P' -> s_Rc sy = R -> s_Rc sy' = R.
Proof.
  intros [sy1 Hm H1 H2|Hs H1 H2] He.
  - apply (rs_pred _ HR) in H2. apply (rs_set _ HR) in H1. congruence.
  - apply (rs_proc _ HR) in H1. congruence.
Qed.

Lemma applyControl_rc R (c : Core E) i c' : rc_ok R c -> (vsize (i_data i) = 0 \/ i_cov i = R) ->
  applyControlInput c i = Ok c' -> rc_ok R c'.
Proof.
  intros (H1 & H2) Hi Ha. destruct (Nat.eq_dec (vsize (i_data i)) 0) as [Hz|Hz].
  - apply applyControl_none in Ha; [|auto]. destruct Ha as (u & R1 & sy & x & P & Hd & Hce & ->).
    assert (HR1 : R1 = R).
    { destruct Hd as [(A & B & C)|(A & B & C)]; [|congruence]. destruct H2; [lia|congruence]. }
    split; simpl; auto. rewrite HR1 in Hce. eapply ControlEffect_Rc; [exact Hce|exact H1].
  - assert (Hc : i_cov i = R) by (destruct Hi; [lia|auto]).
    apply applyControl_vec in Ha; [|lia]. destruct Ha as (sy & x & P & Hce & ->).
    split; simpl; auto. rewrite <- Hc. eapply ControlEffect_Rc; [exact Hce|congruence].
Qed.

Lemma input_core_rc R (c : Core E) i c' : rc_ok R c -> (i_ctl i = true -> i_cov i = R) ->
  input_core c i = Ok c' -> rc_ok R c'.
Proof.
  intros Hr Hi Hin. unfold input_core in Hin. apply obind_ok in Hin as (c1 & H1 & H2). injection H2 as <-.
  change (rc_ok R c1). destruct (i_ctl i) eqn:Ec.
  - apply obind_ok in H1 as (c2 & H3 & H4). injection H4 as <-. change (rc_ok R c2).
    eapply applyControl_rc; eauto.
  - unfold applyMeasurementInput in H1. apply obind_ok in H1 as (c2 & H3 & H4).
    assert (Hadv : rc_ok R c2).
    { unfold advance_if_needed in H3. destruct (tlt tzero _); [|injection H3 as <-; auto].
      apply obind_ok in H3 as (c3 & H5 & H6). injection H6 as <-. change (rc_ok R c3).
      eapply applyControl_rc; [exact Hr| |exact H5]. simpl. apply Hr. }
    destruct (i_model i) as [k|]; [|discriminate]. destruct (nth_error (c_meas c2) k); [|discriminate].
    apply obind_ok in H4 as ([[[sy m1] x1] P1] & H7 & H8). injection H8 as <-.
    apply meas_update_effect in H7. destruct Hadv as (A & B). split; simpl; auto.
    destruct H7 as [m2 _ _ H9|m2 _ _ -> _ _]; auto. apply (rs_corr _ HR) in H9. congruence.
Qed.

(** direct calls in increasing time order *)
Lemma direct_in_order R l : forall s,
  rc_ok R (core s) -> fin (getStateTime s) ->
  Forall (fun i => fin (i_ts i) /\ (i_ctl i = true -> i_cov i = R /\ i_model i = None)) l ->
  in_time_order l ->
  match l with i :: _ => on_time s (i_ts i) | [] => True end ->
  omap core (run L (map call_of l) s) = ofold input_core l (core s).
Proof.
  induction l as [|i l IH]; intros s Hr Fn Hl Hs Ho; [reflexivity|].
  inversion Hl as [|? ? (Fi & Ci) Hl']; subst. inversion Hs as [|? ? Hs' Hi]; subst.
  unfold run. cbn [map ofold].
  assert (Hstep : omap core (step L s (call_of i)) = input_core (core s) i /\
      (forall s1, step L s (call_of i) = Ok s1 -> par s1 = par s)).
  { assert (Hpr : forall s1 : St E, exists s2, pruneHistory L s1 = Ok s2 /\ core s2 = core s1 /\ par s2 = par s1).
    { intros s1. destruct (pruneHistory L s1) as [s2|u] eqn:Ep.
      - exists s2. split; auto. apply pruneHistory_frame in Ep. tauto.
      - rewrite pruneHistory_char in Ep; auto. discriminate. }
    assert (Hap : forall inp : FInput E,
        omap core (let* s1 := applyInput s inp in pruneHistory L s1) = input_core (core s) inp /\
        (forall s1, (let* s1 := applyInput s inp in pruneHistory L s1) = Ok s1 -> par s1 = par s)).
    { intros inp. unfold applyInput. destruct (input_core (core s) inp) as [c|u]; simpl; [|split; [auto|discriminate]].
      destruct (Hpr (mkSt (par s) c (if p_rewind (par s) then hist s ++ [c_cur (core s)] else hist s) (cq s) (mq s)))
        as (s2 & -> & A & B). simpl in *. split; [congruence|]. intros s1 [= <-]. auto. }
    assert (Hcall : step L s (call_of i) = (let* s1 := applyInput s i in pruneHistory L s1)).
    { unfold on_time in Ho. unfold call_of. destruct (i_ctl i) eqn:Ec; simpl.
      - destruct (Ci eq_refl) as (Hcov & Hmod).
        assert (Ei : mkInput (i_data i) (s_Rc (c_sys (core s))) (i_ts i) true None = i).
        { destruct Hr as (-> & _). rewrite <- Hcov, <- Hmod, <- Ec. destruct i; reflexivity. }
        unfold predict_u. rewrite Ei. destruct (p_rewind (par s)); simpl.
        + unfold apply_late. rewrite Ho. cbn [obind negb map]. unfold applyBatchInputs. cbn [ofold].
          destruct (applyInput s i); reflexivity.
        + rewrite Ho. reflexivity.
      - assert (Ei : mkInput (i_data i) (i_cov i) (i_ts i) false (i_model i) = i).
        { rewrite <- Ec. destruct i; reflexivity. }
        unfold correct. rewrite Ei. destruct (p_rewind (par s)); simpl.
        + unfold apply_late. rewrite Ho. cbn [obind negb map]. unfold applyBatchInputs. cbn [ofold].
          destruct (applyInput s i); reflexivity.
        + rewrite (et_sub_nonneg _ _ Hx), Ho, orb_true_r; auto. }
    rewrite Hcall. apply Hap. }
  destruct Hstep as (Hst & Hpar).
  destruct (step L s (call_of i)) as [s1|u]; simpl in Hst; [|rewrite <- Hst; reflexivity].
  rewrite <- Hst. cbn [obind].
  specialize (Hpar s1 eq_refl).
  assert (Ht : getStateTime s1 = i_ts i).
  { symmetry in Hst. apply input_core_time in Hst as (Ht & _). unfold time_of in Ht. unfold getStateTime. rewrite Ht.
    apply (time_after_ge Hx); auto. unfold on_time in Ho. destruct (p_rewind (par s)); auto.
    apply (tlt_false_iff Hx) in Ho; auto. }
  change (ofold (step L) (map call_of l) s1) with (run L (map call_of l) s1). apply IH; auto.
  - eapply input_core_rc; [exact Hr| |symmetry; exact Hst]. intros Hc. apply Ci; auto.
  - rewrite Ht; auto.
  - destruct l as [|j l']; auto. unfold on_time. rewrite Ht.
    inversion Hi as [|? ? Hij _]; subst. inversion Hl' as [|? ? (Fj & _) _]; subst.
    destruct (p_rewind (par s1)); [apply (tlt_asym Hx)|apply (tlt_le Hx)]; auto.
Qed.

Theorem queues_in_time_order R s l :
  rc_ok R (core s) -> fin (getStateTime s) ->
  Forall (fun i => i_ctl i = true /\ i_cov i = R /\ i_model i = None) (cq s) ->
  Forall (fun i => i_ctl i = false) (mq s) ->
  Forall (fun i => fin (i_ts i) /\ (if p_rewind (par s) then tlt (getStateTime s) (i_ts i)
                                    else tle (getStateTime s) (i_ts i)) = true) (cq s ++ mq s) ->
  Forall (fun f => tle (f_ts f) (getStateTime s) = true /\ fin (f_ts f)) (hist s) ->
  Permutation l (cq s ++ mq s) -> in_time_order l ->
  omap (fun s' => core s') (processQueues L s) = omap core (run L (map call_of l) s).
Proof.
  intros Hr Fn Hc Hm Ht Hh Hp Hs.
  assert (Hl : Forall (fun i => fin (i_ts i) /\ (i_ctl i = true -> i_cov i = R /\ i_model i = None)) l).
  { eapply Forall_perm; [apply Permutation_sym; exact Hp|]. rewrite Forall_app. rewrite Forall_app in Ht.
    destruct Ht as (Ht1 & Ht2). rewrite Forall_forall in Hc, Hm, Ht1, Ht2. split; apply Forall_forall; intros i Hi.
    - split; [apply Ht1; auto|]. intros _. apply Hc in Hi. tauto.
    - split; [apply Ht2; auto|]. intros Habs. apply Hm in Hi. congruence. }
  assert (Htl : Forall (fun i => (if p_rewind (par s) then tlt (getStateTime s) (i_ts i)
                                    else tle (getStateTime s) (i_ts i)) = true) l).
  { eapply Forall_perm; [apply Permutation_sym; exact Hp|]. eapply Forall_impl; [|exact Ht]. simpl; tauto. }
  rewrite (direct_in_order R l s); auto.
  2:{ destruct l as [|i l']; auto. inversion Htl; subst. inversion Hl as [|? ? (Fi & _) _]; subst. unfold on_time.
      destruct (p_rewind (par s)); auto. apply (tlt_asym Hx); auto. }
  (* the queue side *)
  assert (Hpq : forall q, incl q (cq s ++ mq s) -> pruneQueue s q = q).
  { intros q Hin. unfold pruneQueue. destruct (p_rewind (par s)) eqn:Er; auto.
    destruct (hist s) as [|fr h] eqn:Eh; auto. inversion Hh as [|? ? (Hle & Ff) _]; subst.
    apply prune_queue_id. rewrite Forall_forall in *. intros i Hi. destruct (Ht i (Hin i Hi)) as (A & B).
    apply (tlt_asym Hx); auto. apply (tle_lt_trans Hx _ (getStateTime s)); auto. }
  unfold processQueues. rewrite !Hpq by (first [apply incl_appl, incl_refl | apply incl_appr, incl_refl]). simpl.
  assert (Hrew : (if p_rewind (par s) then
      let* (_, s1, post) := rewindHistory L (mkSt (par s) (core s) (hist s) (cq s) (mq s))
         (fold_left tmin (map i_ts (cq s ++ mq s)) tinf) in Ok (s1, post)
      else Ok (mkSt (par s) (core s) (hist s) (cq s) (mq s), []))
      = Ok (mkSt (par s) (core s) (hist s) (cq s) (mq s), [])).
  { destruct (p_rewind (par s)) eqn:Er; auto. unfold rewindHistory. simpl.
    assert (Hlt : tlt (getStateTime s) (fold_left tmin (map i_ts (cq s ++ mq s)) tinf) = true).
    { destruct (cq s ++ mq s) as [|i0 q0] eqn:Eq; [apply (et_inf _ _ Hx); auto|]. rewrite <- Eq in *.
      destruct (fold_tmin_inf Hx (map i_ts (cq s ++ mq s))) as (Hin & _).
      - apply Forall_map. eapply Forall_impl; [|exact Ht]. simpl; tauto.
      - rewrite Eq; discriminate.
      - apply in_map_iff in Hin as (i & <- & Hi). rewrite Forall_forall in Ht. apply Ht; auto. }
    unfold getStateTime in Hlt. rewrite Hlt. reflexivity. }
  simpl in Hrew. rewrite Hrew. cbn [obind map app]. simpl.
  assert (Fq : Forall (fun i => fin (i_ts i)) (cq s ++ mq s)) by (eapply Forall_impl; [|exact Ht]; simpl; tauto).
  assert (Hswo : swo_ok (map i_ts (cq s ++ mq s)) = true).
  { apply (swo_ok_fin Hx). apply Forall_map. exact Fq. }
  destruct (Hsort (cq s ++ mq s) Hswo) as (Hperm & Hss).
  unfold std_sort. rewrite Hswo. cbn [obind].
  assert (El : lib_sort L (cq s ++ mq s) = l).
  { assert (Fl : Forall (fun i => fin (i_ts i)) l) by (eapply Forall_impl; [|exact Hl]; simpl; tauto).
    assert (Nd : NoDup (map i_ts l)).
    { clear -Hs Fl Hx. induction Hs as [|a l Hs IH Ha]; simpl; constructor; inversion Fl; subst; auto.
      intros Hin. apply in_map_iff in Hin as (b & Eb & Hb). rewrite Forall_forall in Ha.
      specialize (Ha b Hb). rewrite Eb, (tlt_irrefl Hx) in Ha; auto. discriminate. }
    assert (Hpl : Permutation (lib_sort L (cq s ++ mq s)) l).
    { eapply Permutation_trans; [exact Hperm|apply Permutation_sym; exact Hp]. }
    assert (Hst : StronglySorted (fun a b : FInput E => tlt (i_ts a) (i_ts b) = true) (lib_sort L (cq s ++ mq s))).
    { apply (ge_strict (fin := fin) Hx); auto.
      - eapply Forall_perm; [apply Permutation_sym; exact Hpl|exact Fl].
      - eapply Permutation_NoDup; [apply Permutation_map, Permutation_sym; exact Hpl|exact Nd]. }
    assert (Fm : Forall (fun i => fin (i_ts i)) (lib_sort L (cq s ++ mq s))).
    { eapply Forall_perm; [apply Permutation_sym; exact Hpl|exact Fl]. }
    eapply (StronglySorted_perm_unique (fun a b : FInput E => fin (i_ts a) /\ fin (i_ts b) /\ tlt (i_ts a) (i_ts b) = true)).
    - intros a b (Fa & Fb & H1) (_ & _ & H2). rewrite (tlt_asym Hx _ _ Fa Fb H1) in H2. discriminate.
    - clear -Hst Fm. induction Hst as [|a l0 A IH Ha]; constructor; inversion Fm; subst; auto.
      rewrite Forall_forall in *. auto.
    - clear -Hs Fl. unfold in_time_order in Hs. induction Hs as [|a l0 A IH Ha]; constructor; inversion Fl; subst; auto.
      rewrite Forall_forall in *. auto.
    - exact Hpl. }
  rewrite El. unfold applyBatchInputs.
  remember (mkSt (par s) (core s) (hist s) (cq s) (mq s)) as s0 eqn:E0.
  assert (Ec : core s0 = core s) by (subst; reflexivity). rewrite <- Ec. clear -Hlib.
  destruct (ofold applyInput l s0) as [s1|u] eqn:Eo; cbn [obind].
  - rewrite pruneHistory_char by auto. apply ofold_applyInput_core in Eo. rewrite Eo.
    destruct (p_rewind (par s1)); reflexivity.
  - destruct (ofold input_core l (core s0)) as [c'|u'] eqn:Ei.
    + apply ofold_core_applyInput in Ei as (s' & He & _). congruence.
    + simpl. f_equal. revert s0 u u' Eo Ei. induction l as [|i l IH]; intros s0 u u' Eo Ei; cbn [ofold] in *; [discriminate|].
      unfold applyInput in Eo at 1. destruct (input_core (core s0) i) as [c|]; cbn [obind] in *; [|congruence].
      eapply IH; [exact Eo|exact Ei].
Qed.
End Queue.
