(** Property theorems about queues, stored controls, stationary inputs and invariants
    (C18 - C27, C30).  Conventions as in Props_FilterBase.v. *)
From Coq Require Import ZArith List Bool Arith Lia Sorted Permutation.
From Verif Require Import Outcome FB_Model FB_Time FB_Trace FB_Loops FB_Basic FB_Order FB_Replay
  FB_Spec FB_LogRun FB_Inv FB_Single FB_Queue FB_Fresh Props_FilterBase Props_Rewind.
Import ListNotations.

(** ** C18: any contents of the queues with distinct timestamps that are not before the estimate
    (strictly after it with rewinding on): [l] is the contents of both queues in time order.
    The filter may be in any state in which the last control was given with the current control
    covariance [R]; the queues may have been filled by any interleaving of enqueue calls. *)
Definition enqueue_of {TT} {E : Env TT} (i : FInput E) : Op (E := E) :=
  if i_ctl i then OpEnqC (i_data i) (i_ts i) else OpEnqM (i_data i) (i_cov i) (i_ts i) (i_model i).

Lemma enqueue_run {TT} {E : Env TT} (L : Lib E) (q : list (FInput E)) : forall (s : St E),
  Forall (fun i => i_ctl i = true -> i_cov i = s_Rc (c_sys (core s)) /\ i_model i = None) q ->
  run L (map enqueue_of q) s =
  Ok (mkSt (par s) (core s) (hist s) (cq s ++ filter i_ctl q) (mq s ++ filter (fun i => negb (i_ctl i)) q)).
Proof.
  induction q as [|i q IH]; intros s Hq; unfold run; cbn [map ofold filter].
  - rewrite !app_nil_r. destruct s; reflexivity.
  - inversion Hq as [|? ? Hi Hq']; subst. unfold enqueue_of at 1. destruct (i_ctl i) eqn:Ec; cbn [step obind negb].
    + change (run L (map enqueue_of q) (enqueueControl s (i_data i) (i_ts i)) = Ok (mkSt (par s) (core s) (hist s) (cq s ++ i :: filter i_ctl q) (mq s ++ filter (fun i => negb (i_ctl i)) q))).
      rewrite IH by exact Hq'. unfold enqueueControl; simpl. destruct (Hi eq_refl) as (H1 & H2).
      rewrite <- H1, <- H2, <- Ec, <- app_assoc. destruct i; reflexivity.
    + change (run L (map enqueue_of q) (enqueueMeasurement s (i_data i) (i_cov i) (i_ts i) (i_model i)) = Ok (mkSt (par s) (core s) (hist s) (cq s ++ filter i_ctl q) (mq s ++ i :: filter (fun i => negb (i_ctl i)) q))).
      rewrite IH by exact Hq'. unfold enqueueMeasurement; simpl.
      rewrite <- Ec, <- app_assoc. destruct i; reflexivity.
Qed.

Lemma filter_split_perm {A} (f : A -> bool) l : Permutation (filter f l ++ filter (fun a => negb (f a)) l) l.
Proof.
  induction l as [|a l IH]; simpl; auto. destruct (f a); simpl; auto.
  eapply Permutation_trans; [apply Permutation_sym, Permutation_middle|]. auto.
Qed.

Theorem C18_queues_in_time_order {TT} {E : Env TT} (L : Lib E) {fin} R (s : St E) q l :
  lib_strict L = false -> SortOk L -> ExactTime TT fin -> RcStable E ->
  rc_ok R (core s) -> fin (getStateTime s) -> cq s = [] -> mq s = [] ->
  Forall (fun i => fin (i_ts i) /\ (if p_rewind (par s) then tlt (getStateTime s) (i_ts i)
                                    else tle (getStateTime s) (i_ts i)) = true) q ->
  Forall (fun i => i_ctl i = true -> i_cov i = R /\ i_model i = None) q ->
  Forall (fun f => tle (f_ts f) (getStateTime s) = true /\ fin (f_ts f)) (hist s) ->
  Permutation l q -> in_time_order l ->
  omap est (run L (map enqueue_of q ++ [OpProcess]) s) = omap est (run L (map call_of l) s).
Proof.
  intros Hlib Hsort Hx HR Hrc Fn Hcq Hmq Ht Hq Hh Hp Hs.
  pose proof Hrc as (HRc & _).
  unfold run at 1. rewrite ofold_app. fold (run L (map enqueue_of q) s).
  rewrite enqueue_run by (rewrite HRc; exact Hq). rewrite Hcq, Hmq. cbn [app obind ofold].
  set (s1 := mkSt (par s) (core s) (hist s) (filter i_ctl q) (filter (fun i => negb (i_ctl i)) q)).
  assert (HPp : Permutation (cq s1 ++ mq s1) q) by (apply filter_split_perm).
  assert (He : omap core (processQueues L s1) = omap core (run L (map call_of l) s1)).
  { apply (queues_in_time_order L Hlib Hsort Hx HR R s1 l); auto.
    - unfold s1; simpl. apply Forall_forall. intros i Hi. apply filter_In in Hi as (Hi & Hc).
      rewrite Forall_forall in Hq. split; auto.
    - unfold s1; simpl. apply Forall_forall. intros i Hi. apply filter_In in Hi as (Hi & Hc).
      apply negb_true_iff in Hc. exact Hc.
    - eapply Forall_perm; [apply Permutation_sym; exact HPp|exact Ht].
    - eapply Permutation_trans; [exact Hp|apply Permutation_sym; exact HPp]. }
  assert (Hl : Forall (fun i => fin (i_ts i) /\ (i_ctl i = true -> i_cov i = R /\ i_model i = None)) l).
  { eapply Forall_perm; [apply Permutation_sym; exact Hp|]. rewrite Forall_forall in *. intros i Hi. split; [apply Ht|apply Hq]; auto. }
  assert (Hon : forall s0 : St E, core s0 = core s -> par s0 = par s -> match l with i :: _ => on_time s0 (i_ts i) | [] => True end).
  { intros s0 E1 E2. destruct l as [|i l']; auto. inversion Hl as [|? ? (Fi & _) _]; subst.
    assert (Hi : In i q) by (eapply Permutation_in; [exact Hp|left; auto]).
    rewrite Forall_forall in Ht. destruct (Ht i Hi) as (_ & Hti).
    unfold on_time, getStateTime in *. rewrite E1, E2. destruct (p_rewind (par s)); auto. apply (tlt_asym Hx); auto. }
  pose proof (direct_in_order L Hlib Hx HR R l s1 Hrc Fn Hl Hs (Hon s1 eq_refl eq_refl)) as D1.
  pose proof (direct_in_order L Hlib Hx HR R l s Hrc Fn Hl Hs (Hon s eq_refl eq_refl)) as D2.
  simpl core in D1. rewrite D1, <- D2 in He.
  change (omap est (let* s' := processQueues L s1 in Ok s') = omap est (run L (map call_of l) s)).
  destruct (processQueues L s1) as [a|ua], (run L (map call_of l) s) as [b|ub]; cbn [omap obind] in *; try congruence.
  f_equal. unfold est, getState, getCovariance, getStateTime. congruence.
Qed.

Lemma trace_rc_stable TT : RcStable (TraceEnv TT).
Proof.
  constructor.
  - intros sy R sy' [= <-]. reflexivity.
  - intros sy x P u dt sy' x' P' [= <- _ _]. reflexivity.
  - intros sy x d sy' [= <-]. reflexivity.
  - intros sy m x P z dt sy' m' x' P' [= <- _ _ _]. reflexivity.
Qed.
Example C18_nonvacuous :
  let q := [c11_c 3 7; c11_m 1 9; c11_c 4 5] in
  rc_ok (E := ZE) 7%Z (core (znew P_off)) /\ RcStable ZE /\
  exists s : St ZE, run GL (map enqueue_of q ++ [OpProcess]) (znew P_off) = Ok s
   /\ (getState s = [TPred [4%Z] 7%Z (zt 5); TPred [3%Z] 7%Z (zt 2); TPred [3%Z] 7%Z (zt 2); TCorr [1%Z] 1%Z (zt 2)]).
Proof.
  intros q. split; [split; [reflexivity|left; reflexivity]|]. split; [apply trace_rc_stable|]. okex.
Qed.

(** ** C19: processing late queued inputs.  The full claim fails for the same reason as C11. *)
Definition C19_claim : Prop :=
  forall (TT : TimeOps) (E : Env TT) (L : Lib E) fin sy ms SL ML x P t0 w past (done queued all : list (FInput E)) s,
  lib_strict L = false -> SortOk L -> ExactTime TT fin -> Memoryless E sy ms SL ML -> vsize (vempty : V E) = 0 ->
  fin t0 -> fin w -> tle (tsub t0 w) t0 = true ->
  NoDup (map i_ts (done ++ queued)) -> Forall (in_window (fin := fin) t0 w) (map i_ts (done ++ queued)) ->
  in_time_order done ->
  Permutation all (done ++ queued) -> in_time_order all ->
  run L (rewinding w past (map call_of done ++ map enqueue_of queued ++ [OpProcess])) (new_filter sy ms x P t0) = Ok s ->
  exists s', run L (rewinding w past (map call_of all)) (new_filter sy ms x P t0) = Ok s' /\ est s' = est s.

Theorem C19_refuted : ~ C19_claim.
Proof.
  intros H.
  unshelve epose proof (H ZTime ZE GL zfin zsys [0%Z] (fun s => s = zsys) (fun _ _ => True) (zd []) 0%Z (zt 0) (zt 100) false
    [c11_c 1 1; c11_c 2 3] [c11_m 9 2] [c11_c 1 1; c11_m 9 2; c11_c 2 3] _
    eq_refl (gnu_sort_ok ZE) ZTime_exact (trace_memoryless 1 7 None [0%Z]) eq_refl
    ltac:(zfins) ltac:(zfins) eq_refl _ _ _ _ _ (got_ok _ znew0 _)) as C; [..|okall|].
  - repeat constructor; simpl; intuition discriminate.
  - wins.
  - repeat constructor.
  - apply perm_skip, perm_swap.
  - repeat constructor.
  - destruct C as (s' & H1 & H2).
    apply (f_equal zest) in H2.
    assert (E1 : s' = got (run GL (rewinding (zt 100) false (map call_of [c11_c 1 1; c11_m 9 2; c11_c 2 3]))
      (new_filter (E := ZE) zsys [0%Z] (zd []) 0%Z (zt 0))) znew0) by (rewrite H1; reflexivity).
    rewrite E1 in H2. vm_compute in H2. discriminate H2.
Qed.

(** True part: any number of process calls between direct calls, when the oldest input of every
    processed batch is a control, or newer than all controls processed before it (in particular:
    always when only controls are used, and when only measurements are used).  This is
    [C11_late_mixed_partial]; here for one batch. *)
Theorem C19_merge_partial {TT} {E : Env TT} (L : Lib E) {fin} sy ms SL ML x P t0 w past (done queued all : list (FInput E)) s :
  lib_strict L = false -> SortOk L -> ExactTime TT fin -> Memoryless E sy ms SL ML -> vsize (vempty : V E) = 0 ->
  fin t0 -> fin w -> tle (tsub t0 w) t0 = true ->
  Forall (fun i => i_ctl i = true -> i_cov i = s_Rc sy /\ i_model i = None) (done ++ queued) ->
  NoDup (map i_ts (done ++ queued)) -> Forall (in_window (fin := fin) t0 w) (map i_ts (done ++ queued)) ->
  in_time_order done ->
  (forall i, In i queued -> (forall j, In j queued -> tle (i_ts i) (i_ts j) = true) ->
     is_control i \/ Forall (fun c => is_control c -> tlt (i_ts c) (i_ts i) = true) done) ->
  Permutation all (done ++ queued) -> in_time_order all ->
  run L (rewinding w past (map call_of done ++ map enqueue_of queued ++ [OpProcess])) (new_filter sy ms x P t0) = Ok s ->
  exists s', run L (rewinding w past (map call_of all)) (new_filter sy ms x P t0) = Ok s' /\ est s' = est s.
Proof.
  intros Hlib Hsort Hx HM Hv Ft Fw Hw Hin Hnd Hwin Hd Hm Hp Hs Hr.
  assert (Hdel1 : forall (l : list (FInput E)) d, Forall (fun i => i_ctl i = true -> i_cov i = s_Rc sy /\ i_model i = None) l ->
     fold_left (deliver (s_Rc sy)) (map call_of l) d = mkDel (processed d ++ l) (waiting d)).
  { induction l as [|i l IH]; intros d Hl; simpl; [rewrite app_nil_r; destruct d; reflexivity|].
    inversion Hl as [|? ? Hi Hl']; subst. rewrite IH by auto.
    assert (E1 : deliver (s_Rc sy) d (call_of i) = mkDel (processed d ++ [i]) (waiting d)).
    { unfold call_of. destruct (i_ctl i) eqn:Ec; simpl.
      - destruct (Hi eq_refl) as (H1 & H2). unfold ctl_input. rewrite <- H1, <- H2, <- Ec. destruct i; reflexivity.
      - unfold meas_input. rewrite <- Ec. destruct i; reflexivity. }
    rewrite E1. simpl. rewrite <- app_assoc. reflexivity. }
  assert (Hdel2 : forall (l : list (FInput E)) d, Forall (fun i => i_ctl i = true -> i_cov i = s_Rc sy /\ i_model i = None) l ->
     fold_left (deliver (s_Rc sy)) (map enqueue_of l) d = mkDel (processed d) (waiting d ++ l)).
  { induction l as [|i l IH]; intros d Hl; simpl; [rewrite app_nil_r; destruct d; reflexivity|].
    inversion Hl as [|? ? Hi Hl']; subst. rewrite IH by auto.
    assert (E1 : deliver (s_Rc sy) d (enqueue_of i) = mkDel (processed d) (waiting d ++ [i])).
    { unfold enqueue_of. destruct (i_ctl i) eqn:Ec; simpl.
      - destruct (Hi eq_refl) as (H1 & H2). unfold ctl_input. rewrite <- H1, <- H2, <- Ec. destruct i; reflexivity.
      - unfold meas_input. rewrite <- Ec. destruct i; reflexivity. }
    rewrite E1. simpl. rewrite <- app_assoc. reflexivity. }
  apply Forall_app in Hin as (Hin1 & Hin2).
  assert (Hts : timestamps (map call_of done ++ map enqueue_of queued ++ [OpProcess]) = map i_ts (done ++ queued)).
  { unfold timestamps. rewrite !flat_map_app, map_app. simpl. rewrite app_nil_r. f_equal.
    - clear. induction done as [|i l IH]; simpl; auto. rewrite IH. unfold call_of. destruct (i_ctl i); reflexivity.
    - clear. induction queued as [|i l IH]; simpl; auto. rewrite IH. unfold enqueue_of. destruct (i_ctl i); reflexivity. }
  assert (Happ : forall (o1 o2 : list (Op (E := E))) d, all_allowed (s_Rc sy) d (o1 ++ o2) <->
     all_allowed (s_Rc sy) d o1 /\ all_allowed (s_Rc sy) (fold_left (deliver (s_Rc sy)) o1 d) o2).
  { induction o1 as [|o o1 IH]; intros o2 d; simpl; [tauto|]. rewrite IH. tauto. }
  eapply (C11_late_mixed_partial L Hlib Hsort Hx sy ms SL ML HM Hv x P t0 w past Ft Fw Hw
    (map call_of done ++ map enqueue_of queued ++ [OpProcess]) all s); auto.
  - apply Happ. split; [|apply Happ; split].
    + assert (Hmono : forall l1 l2, in_time_order (l1 ++ l2) -> Forall (fun i => i_ctl i = true -> i_cov i = s_Rc sy /\ i_model i = None) l2 ->
        all_allowed (s_Rc sy) (mkDel l1 []) (map call_of l2)).
      { intros l1 l2. revert l1. induction l2 as [|i l2 IH]; intros l1 Hl Hi; simpl; auto. inversion Hi as [|? ? Hi1 Hi2]; subst. split.
        - assert (Hbef : Forall (fun c => is_control c -> tlt (i_ts c) (i_ts i) = true) l1).
          { apply StronglySorted_app_iff in Hl as (_ & _ & Hl). eapply Forall_impl; [|exact Hl]. intros c Hc _. inversion Hc; auto. }
          unfold call_of. destruct (i_ctl i) eqn:Ec; simpl; right; exact Hbef.
        - pose proof (Hdel1 [i] (mkDel l1 []) (Forall_cons _ Hi1 (Forall_nil _))) as E1. simpl in E1. rewrite E1.
          apply IH; auto. rewrite <- app_assoc. exact Hl. }
      apply (Hmono [] done); auto.
    + rewrite Hdel1 by auto. simpl. assert (Hen : forall (l : list (FInput E)) d, all_allowed (s_Rc sy) d (map enqueue_of l)).
      { induction l as [|i l IH]; intros d; simpl; auto. split; auto. unfold enqueue_of. destruct (i_ctl i); simpl; auto. }
      apply Hen.
    + rewrite Hdel1, Hdel2 by auto. simpl. split; auto.
  - rewrite Hts; auto.
  - rewrite Hts; auto.
  - unfold delivered. rewrite !fold_left_app, Hdel1, Hdel2 by auto. simpl. exact Hp.
Qed.
Example C19_nonvacuous :
  let done := [c11_c 1 2; c11_c 2 6] in let queued := [c11_m 9 7; c11_c 3 4; c11_m 8 5] in
  exists s : St ZE, run GL (rewinding (zt 100) false (map call_of done ++ map enqueue_of queued ++ [OpProcess])) znew0 = Ok s
  /\ getState s = [TPred [1%Z] 7%Z (zt 2); TPred [3%Z] 7%Z (zt 2); TPred [3%Z] 7%Z (zt 1); TCorr [8%Z] 1%Z (zt 1); TPred [2%Z] 7%Z (zt 1); TPred [2%Z] 7%Z (zt 1); TCorr [9%Z] 1%Z (zt 1)].
Proof. okex. Qed.

(** ** C20: order of application.  [TraceEnv] records the time step of every prediction and
    correction the algorithm is asked for; a negative one means that an input was applied to a
    newer state. *)
Definition steps_forward {TT} (l : list (tok TT)) : Prop :=
  Forall (fun k => match k with TPred _ _ dt | TCorr _ _ dt => tle tzero dt = true | _ => True end) l.

Definition C20_claim (rewind : bool) : Prop :=
  forall (TT : TimeOps) (L : Lib (TraceEnv TT)) fin (sy : Sys (TraceEnv TT)) ms t0 w ops (s : St (TraceEnv TT)),
  lib_strict L = false -> SortOk L -> ExactTime TT fin -> fin t0 -> fin w -> Forall fin (timestamps ops) ->
  (forall o, In o ops -> ~ (exists x P t, o = OpInit x P t) /\ ~ (exists t, o = OpRevert t) /\ ~ (exists p, o = OpParams p)) ->
  run L (OpParams (mkParams rewind w false) :: ops) (new_filter (E := TraceEnv TT) sy ms [] 0%Z t0) = Ok s ->
  steps_forward (getState s).

Lemma steps_forward_b {TT} (l : list (tok TT)) : steps_forward l ->
  forallb (fun k => match k with TPred _ _ dt | TCorr _ _ dt => tle tzero dt | _ => true end) l = true.
Proof.
  intros H. apply forallb_forall. unfold steps_forward in H. rewrite Forall_forall in H.
  intros k Hk. specialize (H k Hk). destruct k; auto.
Qed.

Theorem C20_refuted : ~ C20_claim false /\ ~ C20_claim true.
Proof.
  split; intros H.
  - unshelve epose proof (H ZTime GL zfin zsys [0%Z] (zt 0) (zt 1) [OpPredictU (zd [5%Z]) (zt 10); OpEnqC (zd [6%Z]) (zt 5); OpProcess]
      _ eq_refl (gnu_sort_ok ZE) ZTime_exact ltac:(zfins) ltac:(zfins) ltac:(zfins) ltac:(no_special)
      (got_ok _ znew0 _)) as C; [okall..|].
    apply steps_forward_b in C. vm_compute in C. discriminate C.
  - unshelve epose proof (H ZTime GL zfin zsys [0%Z] (zt 0) (zt 100) [OpEnqC (zd [6%Z]) (zt (-5)); OpProcess]
      _ eq_refl (gnu_sort_ok ZE) ZTime_exact ltac:(zfins) ltac:(zfins) ltac:(zfins) ltac:(no_special)
      (got_ok _ znew0 _)) as C; [okall..|].
    apply steps_forward_b in C. vm_compute in C. discriminate C.
Qed.

(** True part: processQueues applies its batch in time order, so all steps are forward when no
    queued input is older than the estimate (with rewinding on: strictly newer).  Ties between
    queued inputs are allowed. *)
Lemma trace_forward {TT} {fin} (Hx : ExactTime TT fin) (l : list (FInput (TraceEnv TT))) : forall (c c' : Core (TraceEnv TT)),
  fin (time_of c) -> Forall (fun i => fin (i_ts i)) l ->
  Forall (fun i => tle (time_of c) (i_ts i) = true) l ->
  StronglySorted (fun a b => tle (i_ts a) (i_ts b) = true) l ->
  ofold input_core l c = Ok c' ->
  exists new, f_x (c_cur c') = f_x (c_cur c) ++ new /\ steps_forward new.
Proof.
  assert (Hctl : forall (c c1 : Core (TraceEnv TT)) i, tle tzero (tsub (i_ts i) (f_ts (c_cur c))) = true ->
    applyControlInput c i = Ok c1 -> exists new, f_x (c_cur c1) = f_x (c_cur c) ++ new /\ steps_forward new).
  { intros c c1 i Hdt Ha. unfold applyControlInput in Ha.
    assert (Hch : f_x (c_cur (snd (choose_control c i))) = f_x (c_cur c)).
    { unfold choose_control. destruct (0 <? _); [reflexivity|]. destruct (0 <? _); reflexivity. }
    destruct (choose_control c i) as [[u cov] c2] eqn:Ec. simpl in Hch.
    apply obind_ok in Ha as ([[sy x] P] & H1 & H2). injection H2 as <-. simpl.
    unfold control_update in H1. apply obind_ok in H1 as (st & _ & H1). destruct (negb st).
    - simpl in H1. injection H1 as <- <- <-. rewrite Hch. exists [TPred (nums u) cov (tsub (i_ts i) (f_ts (c_cur c)))].
      split; [reflexivity|]. constructor; [exact Hdt|constructor].
    - simpl in H1. injection H1 as <- <- <-. rewrite Hch. exists [TStat]. split; [reflexivity|]. repeat constructor. }
  assert (H1 : forall (c c1 : Core (TraceEnv TT)) i, tle tzero (tsub (i_ts i) (f_ts (c_cur c))) = true ->
    input_core c i = Ok c1 -> exists new, f_x (c_cur c1) = f_x (c_cur c) ++ new /\ steps_forward new).
  { intros c c1 i Hdt Hin. unfold input_core in Hin. apply obind_ok in Hin as (c2 & Hc2 & He). injection He as <-. simpl.
    destruct (i_ctl i).
    - apply obind_ok in Hc2 as (c3 & Hc3 & He). injection He as <-. simpl. eapply Hctl; eauto.
    - unfold applyMeasurementInput in Hc2. apply obind_ok in Hc2 as (c3 & Hc3 & Hm).
      assert (Hadv : exists new, f_x (c_cur c3) = f_x (c_cur c) ++ new /\ steps_forward new).
      { unfold advance_if_needed in Hc3. destruct (tlt tzero _).
        - apply obind_ok in Hc3 as (c4 & Hc4 & He). injection He as <-. simpl. eapply (Hctl c); [|exact Hc4]. exact Hdt.
        - injection Hc3 as <-. exists []. rewrite app_nil_r. split; [reflexivity|constructor]. }
      destruct Hadv as (n1 & E1 & F1).
      destruct (i_model i) as [k|]; [|discriminate]. destruct (nth_error (c_meas c3) k) as [m0|]; [|discriminate].
      apply obind_ok in Hm as ([[[sy m] x] P] & Hm & He). injection He as <-. simpl.
      unfold meas_update in Hm. simpl in Hm. injection Hm as <- <- <- <-. rewrite E1.
      exists (n1 ++ [TCorr (nums (i_data i)) (i_cov i) (tsub (i_ts i) (f_ts (c_cur c)))]).
      split; [rewrite app_assoc; reflexivity|]. apply Forall_app. split; [exact F1|constructor; [exact Hdt|constructor]]. }
  induction l as [|i l IH]; intros c c' Fc Fl Hle Hs Hf; cbn [ofold] in Hf.
  - injection Hf as <-. exists []. rewrite app_nil_r. split; [reflexivity|constructor].
  - apply obind_ok in Hf as (c1 & Hc1 & Hf). inversion Fl as [|? ? Fi Fl']; subst.
    inversion Hle as [|? ? Hi Hle']; subst. inversion Hs as [|? ? Hs' Ha]; subst.
    assert (Hdt : tle tzero (tsub (i_ts i) (f_ts (c_cur c))) = true) by (rewrite (et_sub_nonneg _ _ Hx); auto).
    pose proof Hc1 as Hti. apply input_core_time in Hti as (Ht & _). rewrite (time_after_ge Hx) in Ht; auto.
    destruct (H1 c c1 i Hdt Hc1) as (n1 & E1 & F1).
    destruct (IH c1 c') as (n2 & E2 & F2); auto; try (rewrite Ht; auto).
    exists (n1 ++ n2). rewrite E2, E1, app_assoc. split; auto. apply Forall_app; split; auto.
Qed.

Theorem C20_processed_in_order_partial {TT} (L : Lib (TraceEnv TT)) {fin} (s s' : St (TraceEnv TT)) :
  SortOk L -> ExactTime TT fin -> fin (getStateTime s) ->
  Forall (fun i => fin (i_ts i) /\ (if p_rewind (par s) then tlt (getStateTime s) (i_ts i)
                                    else tle (getStateTime s) (i_ts i)) = true) (cq s ++ mq s) ->
  step L s OpProcess = Ok s' ->
  exists new, getState s' = getState s ++ new /\ steps_forward new.
Proof.
  intros Hsort Hx Fn Hq Hst. cbn [step] in Hst. unfold processQueues in Hst. simpl in Hst.
  assert (Hincl : incl (pruneQueue s (cq s) ++ pruneQueue s (mq s)) (cq s ++ mq s)).
  { intros i Hi. apply in_app_or in Hi. apply in_or_app. destruct Hi as [Hi|Hi]; apply pruneQueue_incl in Hi; auto. }
  set (q := pruneQueue s (cq s) ++ pruneQueue s (mq s)) in *.
  assert (Fq : Forall (fun i => fin (i_ts i) /\ (if p_rewind (par s) then tlt (getStateTime s) (i_ts i)
                                    else tle (getStateTime s) (i_ts i)) = true) q).
  { apply Forall_forall. intros i Hi. rewrite Forall_forall in Hq. auto. }
  assert (Hrew : (if p_rewind (par s) then
      let* (_, s1, post) := rewindHistory L (mkSt (par s) (core s) (hist s) (pruneQueue s (cq s)) (pruneQueue s (mq s)))
          (fold_left tmin (map i_ts q) tinf) in Ok (s1, post)
      else Ok (mkSt (par s) (core s) (hist s) (pruneQueue s (cq s)) (pruneQueue s (mq s)), []))
      = Ok (mkSt (par s) (core s) (hist s) (pruneQueue s (cq s)) (pruneQueue s (mq s)), [])).
  { destruct (p_rewind (par s)) eqn:Er; auto. unfold rewindHistory. simpl.
    assert (Hlt : tlt (getStateTime s) (fold_left tmin (map i_ts q) tinf) = true).
    { destruct q as [|i0 q0] eqn:Eq; [apply (et_inf _ _ Hx); auto|]. rewrite <- Eq in *.
      destruct (fold_tmin_inf Hx (map i_ts q)) as (Hin & _).
      - apply Forall_forall. intros t Hin. apply in_map_iff in Hin as (i & <- & Hi). rewrite Forall_forall in Fq. apply Fq; auto.
      - rewrite Eq; discriminate.
      - apply in_map_iff in Hin as (i & <- & Hi). rewrite Forall_forall in Fq. apply Fq; auto. }
    unfold getStateTime in Hlt. rewrite Hlt. reflexivity. }
  rewrite Hrew in Hst. cbn [obind map app] in Hst. simpl cq in Hst. simpl mq in Hst. fold q in Hst.
  assert (Hswo : swo_ok (map i_ts q) = true).
  { apply (swo_ok_fin Hx). apply Forall_forall. intros t Hin. apply in_map_iff in Hin as (i & <- & Hi).
    rewrite Forall_forall in Fq. apply Fq; auto. }
  destruct (Hsort q Hswo) as (Hperm & Hss). unfold std_sort in Hst. rewrite Hswo in Hst. cbn [obind] in Hst.
  apply obind_ok in Hst as (s2 & H2 & H3). injection H3 as <-. apply applyBatchInputs_core in H2 as (H2 & _).
  simpl core in H2.
  assert (Fl : Forall (fun i => fin (i_ts i)) (lib_sort L q)).
  { eapply Forall_perm; [apply Permutation_sym; exact Hperm|]. eapply Forall_impl; [|exact Fq]. simpl; tauto. }
  destruct (trace_forward Hx (lib_sort L q) (core s) (core s2)) as (new & E1 & F1); auto.
  - eapply Forall_perm; [apply Permutation_sym; exact Hperm|]. eapply Forall_impl; [|exact Fq].
    simpl. intros i (Fi & Hi). destruct (p_rewind (par s)); auto. apply (tlt_le Hx); auto.
  - revert Hss Fl. clear -Hx. induction 1 as [|a l Hs IH Ha]; intros Fl; constructor; inversion Fl; subst; auto.
    rewrite Forall_forall in *. intros b Hb. apply (tlt_false_iff Hx); auto.
  - exists new. split; auto.
Qed.

(** ** C21: queue bookkeeping *)
Theorem C21_queues {TT} {E : Env TT} (L : Lib E) (s : St E) :
  (forall u t s', step L s (OpEnqC u t) = Ok s' -> est s' = est s /\ hist s' = hist s /\ mq s' = mq s /\ cq s' = cq s ++ [ctl_input (s_Rc (c_sys (core s))) u t]) /\
  (forall z Q t m s', step L s (OpEnqM z Q t m) = Ok s' -> est s' = est s /\ hist s' = hist s /\ cq s' = cq s /\ mq s' = mq s ++ [meas_input z Q t m]) /\
  (forall s', step L s OpClearC = Ok s' -> est s' = est s /\ hist s' = hist s /\ mq s' = mq s /\ cq s' = []) /\
  (forall s', step L s OpClearM = Ok s' -> est s' = est s /\ hist s' = hist s /\ cq s' = cq s /\ mq s' = []) /\
  (forall s', step L s OpProcess = Ok s' -> cq s' = [] /\ mq s' = []) /\
  (forall s', lib_sort L [] = [] -> tlt (getStateTime s) tinf = true -> cq s = [] -> mq s = [] ->
     step L s OpProcess = Ok s' -> est s' = est s /\ core s' = core s /\ par s' = par s).
Proof.
  repeat split; cbn [step] in *; intros.
  all: try (match goal with H : Ok _ = Ok _ |- _ => injection H as <- end; simpl; rewrite ?app_length; simpl; auto; lia).
  all: try (match goal with H : processQueues _ _ = Ok _ |- _ => apply processQueues_empties in H as (? & ?); auto; fail end).
  all: match goal with H : processQueues _ _ = Ok _ |- _ => apply processQueues_nothing in H as (Hc & Hp & _); auto end.
  unfold est, getState, getCovariance, getStateTime. rewrite Hc. reflexivity.
Qed.
Example C21_nonvacuous : lib_sort GL [] = [] /\ tlt (getStateTime (znew P_on)) tinf = true.
Proof. split; reflexivity. Qed.

(** ** C22: the control used by predict(t) *)
(** Calls that apply no control vector in state [s] *)
Definition quiet {TT} {E : Env TT} (s : St E) (o : Op (E := E)) : Prop :=
  match o with
  | OpPredictU _ _ | OpProcess => False
  | OpCorrect _ _ t _ => p_rewind (par s) = false \/ tlt t (getStateTime s) = false
  | _ => True
  end.
Inductive quiet_run {TT} {E : Env TT} (L : Lib E) : list (Op (E := E)) -> St E -> St E -> Prop :=
| QR_nil s : quiet_run L [] s s
| QR_cons o ops s s1 s' : quiet s o -> step L s o = Ok s1 -> quiet_run L ops s1 s' -> quiet_run L (o :: ops) s s'.

Lemma quiet_keeps {TT} {E : Env TT} (L : Lib E) (Hv : vsize (vempty : V E) = 0) ops (s s' : St E) :
  quiet_run L ops s s' -> c_pc (core s') = c_pc (core s) /\ c_pcc (core s') = c_pcc (core s).
Proof.
  induction 1 as [s|o ops s s1 s' Hq Hst Hr (I1 & I2)]; auto. rewrite I1, I2. clear I1 I2 Hr s' ops.
  destruct o; cbn [step quiet] in *; try contradiction; try (injection Hst as <-; auto; fail).
  - unfold predict_t in Hst. destruct (tlt (getStateTime s) t); [|injection Hst as <-; auto].
    apply apply_prune_core in Hst as (Hc & _). apply input_core_no_vec in Hc; auto.
  - unfold correct in Hst. destruct (p_rewind (par s)) eqn:Er; simpl in Hst.
    + destruct Hq as [|Hq]; [discriminate|]. apply late_on_time in Hst as (Hc & _); [|exact Hq].
      apply input_core_no_vec in Hc; auto.
    + destruct (p_past (par s) || _); [|injection Hst as <-; auto].
      apply apply_prune_core in Hst as (Hc & _). apply input_core_no_vec in Hc; auto.
  - apply obind_ok in Hst as ([s2 b] & H1 & H2). injection H2 as <-.
    unfold revertToState in H1. apply obind_ok in H1 as ([[ok s3] post] & H3 & H4).
    assert (Hc : c_pc (core s3) = c_pc (core s) /\ c_pcc (core s3) = c_pcc (core s)).
    { unfold rewindHistory in H3. destruct (tlt _ t); [injection H3 as <- <- <-; auto|].
      destruct (hist s); [injection H3 as <- <- <-; auto|]. destruct (tlt _ t); [|injection H3 as <- <- <-; auto].
      apply obind_ok in H3 as ([h1 p1] & _ & H3). destruct (last_opt h1); [|discriminate].
      injection H3 as <- <- <-. auto. }
    destruct ok; injection H4 as <- <-; exact Hc.
Qed.

(** after predict(u, t1), and any number of calls that apply no other control, predict(t2)
    applies [u] with the covariance the system model had at that predict(u, t1) *)
Theorem C22_last_control {TT} {E : Env TT} (L : Lib E) (s s1 s2 s3 : St E) u t1 ops t2 :
  vsize (vempty : V E) = 0 -> 0 < vsize u -> on_time s t1 ->
  step L s (OpPredictU u t1) = Ok s1 -> quiet_run L ops s1 s2 ->
  tlt (getStateTime s2) t2 = true -> step L s2 (OpPredictT t2) = Ok s3 ->
  exists sy x P,
    ControlEffect (c_sys (core s2)) (getState s2) (getCovariance s2) vempty u (s_Rc (c_sys (core s)))
      (tsub t2 (getStateTime s2)) sy x P /\
    est s3 = (x, P, tadd (getStateTime s2) (tsub t2 (getStateTime s2))).
Proof.
  intros Hv Hu Ho H1 Hq Hlt H3. apply predict_u_effect in H1 as (sy & x & P & _ & _ & A & B & _); auto.
  apply (quiet_keeps L Hv) in Hq as (Q1 & Q2). apply predict_t_effect in H3 as (u' & R & sy' & x' & P' & Hd & He & Hest & _); auto.
  exists sy', x', P'. split; auto.
  destruct Hd as [Hd|Hd]; rewrite Q1, A in *; [|lia]. rewrite Q2, B in He. exact He.
Qed.
(** ... and a null control with the covariance of the model if there has been no control *)
Theorem C22_null_control {TT} {E : Env TT} (L : Lib E) sy0 ms x0 P0 t0 ops (s s' : St E) t :
  (forall l i, In i (lib_sort L l) -> In i l) -> vsize (vempty : V E) = 0 ->
  Forall no_control ops -> run L ops (new_filter sy0 ms x0 P0 t0) = Ok s ->
  tlt (getStateTime s) t = true -> step L s (OpPredictT t) = Ok s' ->
  exists sy x P,
    ControlEffect (c_sys (core s)) (getState s) (getCovariance s) vempty
      (vzero (s_csize (c_sys (core s)))) (s_Rc (c_sys (core s))) (tsub t (getStateTime s)) sy x P /\
    est s' = (x, P, tadd (getStateTime s) (tsub t (getStateTime s))).
Proof.
  intros Hs Hv Hn H0 Hlt Hst.
  assert (HA : c_pc (core s) = vempty).
  { edestruct (no_control_inv L Hs Hv ops (new_filter sy0 ms x0 P0 t0) s) as ((A & _) & _); auto.
    repeat split; simpl; auto; intros _; auto. }
  apply predict_t_effect in Hst as (u' & R & sy' & x' & P' & Hd & He & Hest & _); auto.
  exists sy', x', P'. split; auto. destruct Hd as [Hd|Hd]; auto. rewrite HA in Hd. lia.
Qed.
Example C22_nonvacuous :
  let s1 := zrun P_on [OpPredictU (zd [5%Z]) (zt 1)] in
  exists s3 : St ZE, run GL [OpCorrect (zd [1%Z]) 2%Z (zt 3) (Some 0); OpPredictT (zt 4)] s1 = Ok s3 /\
  getState s3 = [TPred [5%Z] 7%Z (zt 1); TPred [5%Z] 7%Z (zt 2); TCorr [1%Z] 2%Z (zt 2); TPred [5%Z] 7%Z (zt 1)].
Proof. intros s1. okex. Qed.
Example C22_null_nonvacuous : exists s : St ZE,
  run GL [OpCorrect (zd [1%Z]) 2%Z (zt 3) (Some 0); OpPredictT (zt 4)] (znew P_on) = Ok s /\
  getState s = [TPred [0%Z] 7%Z (zt 3); TCorr [1%Z] 2%Z (zt 3); TPred [0%Z] 7%Z (zt 1)].
Proof. okex. Qed.

(** ** C23: a control covariance set by the user.  [TPred _ R _] records the covariance in the
    system model when the algorithm predicts. *)
Definition set_Rc (R : Z) (sy : TSys ZTime) : TSys ZTime := mkTSys (t_m sy) R (t_pred sy).
Definition C23_claim : Prop :=
  forall sy ms ops s R t s', (* any filter, then setControlCovariance(R), then predict(t) *)
  run GL ops (new_filter (E := ZE) sy ms [] 0%Z (zt 0)) = Ok s -> t_pred (c_sys (core s)) = None ->
  tlt (getStateTime s) t = true ->
  run GL [OpSys (E := ZE) (set_Rc R); OpPredictT t] s = Ok s' ->
  exists u dt, getState s' = getState s ++ [TPred u R dt].
Theorem C23_refuted : ~ C23_claim.
Proof.
  intros H.
  unshelve epose proof (H zsys [0%Z] [OpPredictU (zd [5%Z]) (zt 1)] _ 9%Z (zt 2) _ (got_ok _ znew0 _) _ _ (got_ok _ znew0 _)) as C; [okall..|].
  destruct C as (u & dt & C). apply (f_equal digest) in C. unfold digest in C. rewrite map_app in C.
  vm_compute in C. injection C as _ C. discriminate C.
Qed.
(** True part: a control given after setControlCovariance(R) is applied with R, and if no control
    was ever given, predict(t) uses R too.  (What fails is predict(t)/correct after a control:
    they use, and restore in the model, the covariance that was current when that control was
    given.) *)
Theorem C23_next_control_partial {TT} {E : Env TT} (L : Lib E) (s s' : St E) (setR : Sys E -> Sys E) R u t :
  (forall sy, s_Rc (setR sy) = R) -> 0 < vsize u -> on_time s t ->
  run L [OpSys setR; OpPredictU u t] s = Ok s' ->
  exists sy x P, ControlEffect (setR (c_sys (core s))) (getState s) (getCovariance s) u u R (tsub t (getStateTime s)) sy x P
    /\ est s' = (x, P, tadd (getStateTime s) (tsub t (getStateTime s))).
Proof.
  intros HR Hu Ho Hr. unfold run in Hr. cbn [ofold step obind] in Hr. apply obind_ok in Hr as (s1 & H1 & H2). injection H2 as <-.
  apply predict_u_effect in H1 as (sy & x & P & He & Hest & _); auto. simpl in He. rewrite HR in He. eauto 6.
Qed.
Theorem C23_no_control_partial {TT} {E : Env TT} (L : Lib E) sy0 ms x0 P0 t0 ops (s s' : St E) (setR : Sys E -> Sys E) R t :
  (forall l i, In i (lib_sort L l) -> In i l) -> vsize (vempty : V E) = 0 -> (forall sy, s_Rc (setR sy) = R) ->
  Forall no_control ops -> run L ops (new_filter sy0 ms x0 P0 t0) = Ok s ->
  tlt (getStateTime s) t = true -> run L [OpSys setR; OpPredictT t] s = Ok s' ->
  exists sy x P u, ControlEffect (setR (c_sys (core s))) (getState s) (getCovariance s) vempty u R (tsub t (getStateTime s)) sy x P
    /\ est s' = (x, P, tadd (getStateTime s) (tsub t (getStateTime s))).
Proof.
  intros Hs Hv HR Hn H0 Hlt Hr. unfold run in Hr. cbn [ofold step obind] in Hr. apply obind_ok in Hr as (s1 & H1 & H2). injection H2 as <-.
  assert (HA : c_pc (core s) = vempty).
  { edestruct (no_control_inv L Hs Hv ops (new_filter sy0 ms x0 P0 t0) s) as ((A & _) & _); auto.
    repeat split; simpl; auto; intros _; auto. }
  apply predict_t_effect in H1 as (u & R1 & sy & x & P & Hd & He & Hest & _); auto. simpl in He.
  destruct Hd as [Hd|Hd]; [simpl in Hd; rewrite HA in Hd; lia|]. simpl in He. rewrite HR in He. eauto 8.
Qed.

(** ** C24: what the stationary predicate is shown *)
Definition C24_claim : Prop :=
  forall (p : list (tok ZTime) -> list (tok ZTime) -> outcome bool) m R (ops : list (Op (E := ZE))),
  (* a predicate that is defined on control vectors of the control size, *)
  (forall x d, length d = m -> is_ok (p x d) = true) ->
  (* and controls and measurement models that exist *)
  (forall u t, In (OpPredictU u t) ops -> length u = m) -> (forall u t, In (OpEnqC u t) ops -> length u = m) ->
  (forall z Q t k, In (OpCorrect z Q t k) ops \/ In (OpEnqM z Q t k) ops -> k = Some 0) ->
  (forall f, ~ In (OpSys f) ops) -> (forall f, ~ In (OpMeas f) ops) ->
  is_ok (run GL ops (new_filter (E := ZE) (mkTSys m R (Some p)) [0%Z] [] 0%Z (zt 0))) = true.
(** predict(1) shows the predicate an empty vector *)
Theorem C24_refuted : ~ C24_claim.
Proof.
  intros H.
  unshelve epose proof (H (fun _ d => if length d =? 1 then Ok false else Ub ub_oob) 1 7%Z [OpPredictT (E := ZE) (zt 1)] _ _ _ _ _ _) as C;
    try (simpl; intuition discriminate).
  intros x d Hd. cbv beta. rewrite Hd. reflexivity.
Qed.
(** True part: predict(u, t) shows it u (the data argument of ControlEffect); correct of a newer
    measurement shows it the last control - or an empty vector (see C26). *)
Theorem C24_predict_u_partial {TT} {E : Env TT} (L : Lib E) (s s' : St E) u t :
  0 < vsize u -> on_time s t -> step L s (OpPredictU u t) = Ok s' ->
  exists sy x P, ControlEffect (c_sys (core s)) (getState s) (getCovariance s) u u (s_Rc (c_sys (core s)))
      (tsub t (getStateTime s)) sy x P /\ est s' = (x, P, tadd (getStateTime s) (tsub t (getStateTime s))).
Proof. intros Hu Ho Hst. apply predict_u_effect in Hst as (sy & x & P & A & B & _); eauto 6. Qed.

(** ** C25: stationary inputs *)
Theorem C25_stationary_control {TT} {E : Env TT} (L : Lib E) (s s' : St E) u t :
  0 < vsize u -> on_time s t -> step L s (OpPredictU u t) = Ok s' ->
  still_sys (c_sys (core s)) (getState s) u ->
  exists sy x P, s_proc (c_sys (core s)) (getState s) u = Ok sy /\ s_make sy (getState s) (getCovariance s) = Ok (x, P) /\
    est s' = (x, P, tadd (getStateTime s) (tsub t (getStateTime s))) /\ c_sys (core s') = sy /\ c_meas (core s') = c_meas (core s).
Proof.
  intros Hu Ho Hst (Hc & Hs). apply predict_u_effect in Hst as (sy & x & P & He & Hest & _ & _ & Hy & Hz); auto.
  exists sy, x, P. destruct He as [sy1 [Hm|Hm] _ _|_ H1 H2]; auto; congruence.
Qed.
Theorem C25_stationary_predict_t {TT} {E : Env TT} (L : Lib E) (s s' : St E) t :
  vsize (vempty : V E) = 0 -> tlt (getStateTime s) t = true -> step L s (OpPredictT t) = Ok s' ->
  still_sys (c_sys (core s)) (getState s) vempty ->
  exists sy x P, s_proc (c_sys (core s)) (getState s) vempty = Ok sy /\ s_make sy (getState s) (getCovariance s) = Ok (x, P) /\
    est s' = (x, P, tadd (getStateTime s) (tsub t (getStateTime s))) /\ c_sys (core s') = sy /\ c_meas (core s') = c_meas (core s).
Proof.
  intros Hv Hlt Hst (Hc & Hs). apply predict_t_effect in Hst as (u & R & sy & x & P & _ & He & Hest & _ & _ & Hy & Hz); auto.
  exists sy, x, P. destruct He as [sy1 [Hm|Hm] _ _|_ H1 H2]; auto; congruence.
Qed.
Theorem C25_stationary_measurement {TT} {E : Env TT} (L : Lib E) {fin} (s s' : St E) z Q m0 m1 k :
  ExactTime TT fin -> fin (getStateTime s) ->
  nth_error (c_meas (core s)) k = Some m0 -> m_setCov m0 Q = Ok m1 -> still_meas m1 (getState s) z ->
  step L s (OpCorrect z Q (getStateTime s) (Some k)) = Ok s' ->
  exists m2 x P, m_proc m1 (getState s) z = Ok m2 /\ m_make m2 (getState s) (getCovariance s) = Ok (x, P) /\
    est s' = (x, P, getStateTime s) /\ c_sys (core s') = c_sys (core s) /\ c_meas (core s') = list_set (c_meas (core s)) k m2.
Proof.
  intros Hx Fn Hn Hsc (Hc & Hs) Hst.
  apply (correct_effect_now L Hx) in Hst as (k' & m0' & sy2 & m2 & x2 & P2 & [= <-] & Hn' & He & Hest & Hy & Hz); auto.
  rewrite Hn in Hn'. injection Hn' as <-. exists m2, x2, P2.
  destruct He as [m1' H1 [Hm|Hm] _|m1' H1 _ -> H2 H3]; rewrite Hsc in H1; injection H1 as <-; auto; congruence.
Qed.
Example C25_nonvacuous :
  let sy := mkTSys 1 7%Z (Some (fun _ d => Ok (match nums d with [0%Z] => true | _ => false end))) : Sys ZE in
  still_sys (E := ZE) sy (zd []) (zd [0%Z]) /\
  exists s : St ZE, run GL [OpPredictU (zd [0%Z]) (zt 3); OpPredictU (zd [1%Z]) (zt 5)] (new_filter (E := ZE) sy [0%Z] (zd []) 0%Z (zt 0)) = Ok s /\
  (getState s = [TStat; TPred [1%Z] 7%Z (zt 2)] /\ getStateTime s = zt 5).
Proof. intros sy. split; [split; reflexivity|]. okex. Qed.

(** ** C26: measurements and the time of the estimate *)
Theorem C26_future_measurement {TT} {E : Env TT} (L : Lib E) {fin} (s s' : St E) z Q t m :
  ExactTime TT fin -> fin t -> fin (getStateTime s) -> tlt (getStateTime s) t = true ->
  step L s (OpCorrect z Q t m) = Ok s' ->
  (* advance with the last control, or the null control, ... *)
  exists u R sy1 x1 P1, default_control s u R /\
  ControlEffect (c_sys (core s)) (getState s) (getCovariance s) (c_pc (core s)) u R (tsub t (getStateTime s)) sy1 x1 P1 /\
  (* ... then correct the advanced estimate *)
  exists k m0 sy2 m2 x2 P2, m = Some k /\ nth_error (c_meas (core s)) k = Some m0 /\
  MeasEffect sy1 m0 x1 P1 z Q (tsub t (getStateTime s)) sy2 m2 x2 P2 /\ est s' = (x2, P2, t) /\
  c_sys (core s') = sy2 /\ c_meas (core s') = list_set (c_meas (core s)) k m2.
Proof.
  intros Hx Ft Fn Hlt Hst.
  apply (correct_effect_future L Hx) in Hst as (u & R & sy1 & x1 & P1 & k & m0 & sy2 & m2 & x2 & P2 & A & B & C & D & F & G & H & I); auto.
  exists u, R, sy1, x1, P1. split; auto. split; auto. exists k, m0, sy2, m2, x2, P2. auto 8.
Qed.
Theorem C26_present_or_past_measurement {TT} {E : Env TT} (L : Lib E) {fin} (s s' : St E) z Q t m :
  ExactTime TT fin -> fin t -> fin (getStateTime s) ->
  (p_rewind (par s) = false /\ p_past (par s) = true /\ tle t (getStateTime s) = true) \/ t = getStateTime s ->
  step L s (OpCorrect z Q t m) = Ok s' ->
  exists k m0 sy2 m2 x2 P2, m = Some k /\ nth_error (c_meas (core s)) k = Some m0 /\
  MeasEffect (c_sys (core s)) m0 (getState s) (getCovariance s) z Q (tsub t (getStateTime s)) sy2 m2 x2 P2 /\
  est s' = (x2, P2, getStateTime s) /\ c_sys (core s') = sy2 /\ c_meas (core s') = list_set (c_meas (core s)) k m2.
Proof. intros Hx Ft Fn Hor Hst. apply (correct_effect_now L Hx) in Hst; auto. Qed.
Example C26_nonvacuous : exists s : St ZE,
  run GL [OpPredictU (zd [5%Z]) (zt 1); OpCorrect (zd [1%Z]) 2%Z (zt 3) (Some 0); OpCorrect (zd [1%Z]) 2%Z (zt 3) (Some 0)] (znew P_on) = Ok s /\
  getState s = [TPred [5%Z] 7%Z (zt 1); TPred [5%Z] 7%Z (zt 2); TCorr [1%Z] 2%Z (zt 2); TCorr [1%Z] 2%Z (zt 0)].
Proof. okex. Qed.

(** ** C27: the dt given to the measurement model.  In C26_future_measurement the model is given
    t - getStateTime() although the estimate it is evaluated at is already at t. *)
Definition C27_claim : Prop :=
  forall (s s' : St ZE) z Q t, zfin t -> zfin (getStateTime s) -> tle (getStateTime s) t = true ->
  step GL s (OpCorrect z Q t (Some 0)) = Ok s' ->
  exists pre, getState s' = pre ++ [TCorr (nums z) Q (tsub t (getStateTime s'))].
Theorem C27_refuted : ~ C27_claim.
Proof.
  intros H.
  unshelve epose proof (H (znew P_off) _ (zd [1%Z]) 2%Z (zt 3) (ex_intro _ 3%Z eq_refl) (ex_intro _ 0%Z eq_refl) _ (got_ok _ znew0 _)) as C; [okall..|].
  destruct C as (pre & C). apply (f_equal digest) in C. unfold digest in C. rewrite map_app in C.
  apply (f_equal (@rev _)) in C. rewrite rev_app_distr in C. vm_compute in C. injection C as C _. discriminate C.
Qed.
(** True part: for a measurement that needs no advance, the dt is t - getStateTime(). *)
Theorem C27_no_advance_partial {TT} {E : Env TT} (L : Lib E) {fin} (s s' : St E) z Q t m :
  ExactTime TT fin -> fin t -> fin (getStateTime s) ->
  (p_rewind (par s) = false /\ p_past (par s) = true /\ tle t (getStateTime s) = true) \/ t = getStateTime s ->
  step L s (OpCorrect z Q t m) = Ok s' ->
  exists k m0 sy2 m2 x2 P2, m = Some k /\ nth_error (c_meas (core s)) k = Some m0 /\
  MeasEffect (c_sys (core s)) m0 (getState s) (getCovariance s) z Q (tsub t (getStateTime s)) sy2 m2 x2 P2 /\
  est s' = (x2, P2, getStateTime s) /\ c_sys (core s') = sy2 /\ c_meas (core s') = list_set (c_meas (core s)) k m2.
Proof. intros Hx Ft Fn Hor Hst. apply (correct_effect_now L Hx) in Hst; auto. Qed.

(** ** C30: invariants *)
Theorem C30_invariant {TT} {E : Env TT} (L : Lib E) (Good : V E -> Mx E -> Prop) (SI : Sys E -> Prop) (MI MC : Meas E -> Prop)
    (RcOk QOk : Mx E -> Prop) sy ms x P t ops s :
  (forall l i, In i (lib_sort L l) -> In i l) ->
  Preserved Good SI MI MC RcOk QOk ->
  SI sy -> Forall MI ms -> Good x P -> Forall (call_ok Good SI MI QOk) ops ->
  run L ops (new_filter sy ms x P t) = Ok s ->
  Good (getState s) (getCovariance s).
Proof. intros Hs Hp H1 H2 H3 H4 H5. eapply (invariant_reachable L Hs Good SI MI MC RcOk QOk Hp) in H5; eauto. tauto. Qed.

(** an instance: no estimate of the trace algorithm ever contains a raw number *)
Example C30_nonvacuous : Preserved (E := ZE) (fun x _ => nums x = []) (fun _ => True) (fun _ => True) (fun _ => True) (fun _ => True) (fun _ => True).
Proof.
  constructor; simpl; auto.
  - intros sy x P u dt sy' x' P' _ Hg [= <- <- <-]. split; auto. unfold nums in *. rewrite flat_map_app, Hg. reflexivity.
  - intros sy x P x' P' _ Hg [= <- <-]. unfold nums in *. rewrite flat_map_app, Hg. reflexivity.
  - intros sy m x P z dt sy' m' x' P' _ _ Hg [= <- <- <- <-]. split; auto. split; auto.
    unfold nums in *. rewrite flat_map_app, Hg. reflexivity.
  - intros m x P x' P' _ Hg [= <- <-]. exact Hg.
Qed.
