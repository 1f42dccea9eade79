(** Property theorems about late inputs, history and reverting (C07, C09 - C17, C28). Conventions
    as in Props_FilterBase.v. *)
From Coq Require Import ZArith List Bool Arith Lia Sorted Permutation.
From Verif Require Import Outcome FB_Model FB_Time FB_Trace FB_Loops FB_Basic FB_Order FB_Replay
  FB_Spec FB_LogRun FB_Inv FB_Single FB_Queue FB_Fresh Props_FilterBase.
Import ListNotations.

(** ** C07 *)
Theorem C07_accepted_sets_time {TT} {E : Env TT} (L : Lib E) {fin} (s s' : St E) t :
  ExactTime TT fin -> fin t -> fin (getStateTime s) -> tle (getStateTime s) t = true ->
  (step L s (OpPredictT t) = Ok s' -> getStateTime s' = t) /\
  (forall u, step L s (OpPredictU u t) = Ok s' -> getStateTime s' = t) /\
  (forall z Q m, step L s (OpCorrect z Q t m) = Ok s' -> getStateTime s' = t).
Proof.
  intros Hx Ft Fn Hle.
  assert (Ho : on_time s t).
  { unfold on_time. destruct (p_rewind (par s)); auto. apply (tlt_false_iff Hx); auto. }
  assert (Hc : forall i, i_ts i = t -> input_core (core s) i = Ok (core s') -> getStateTime s' = t).
  { intros i Hi Hin. apply input_core_time in Hin as (Ht & _). unfold getStateTime.
    unfold time_of in Ht. rewrite Ht. rewrite (time_after_ge Hx); auto; rewrite Hi; auto. }
  split; [|split]; cbn [step].
  - unfold predict_t. destruct (tlt (getStateTime s) t) eqn:Et; intros Hp.
    + apply apply_prune_core in Hp as (Hp & _). eapply Hc; [|exact Hp]. reflexivity.
    + injection Hp as <-. apply (tlt_false_iff Hx) in Et; auto. apply (et_antisym _ _ Hx); auto.
  - intros u Hp. apply predict_u_core in Hp as (Hp & _); auto. eapply Hc; [|exact Hp]. reflexivity.
  - intros z Q m Hp. apply (correct_core L Hx) in Hp as (Hp & _); auto. eapply Hc; [|exact Hp]. reflexivity.
Qed.

Example C07_nonvacuous : exists s' : St ZE,
  step GL (znew P_on) (OpCorrect (zd [4%Z]) 2%Z (zt 3) (Some 0)) = Ok s' /\ getStateTime s' = zt 3.
Proof. okex. Qed.

(** ** C09, C10, C11: late inputs *)
(** the calls on a new filter with rewinding on and window [w] *)
Definition rewinding {TT} {E : Env TT} (w : TT) (past : bool) (ops : list (Op (E := E))) : list (Op (E := E)) :=
  OpParams (mkParams true w past) :: ops.

Lemma run_rewinding {TT} {E : Env TT} (L : Lib E) w past ops sy ms x P t0 :
  run L (rewinding w past ops) (new_filter sy ms x P t0) =
  run L ops (mkSt (mkParams true w past) (core (new_filter (E := E) sy ms x P t0)) [] [] []).
Proof. reflexivity. Qed.

Section Late.
Context {TT : TimeOps} {E : Env TT} (L : Lib E) {fin : TT -> Prop}.
Context (Hlib : lib_strict L = false) (Hsort : SortOk L) (Hx : ExactTime TT fin).
Context (sy : Sys E) (ms : list (Meas E)) (SL : Sys E -> Prop) (ML : nat -> Meas E -> Prop).
Context (HM : Memoryless E sy ms SL ML) (Hv : vsize (vempty : V E) = 0).
Context (x : V E) (P : Mx E) (t0 w : TT) (past : bool) (Ht0 : fin t0) (Hw : fin w) (Hw0 : tle (tsub t0 w) t0 = true).

(** a timestamp later than the initial time, such that the initial state is still in the window *)
Definition in_window (t : TT) : Prop := fin t /\ tlt t0 t = true /\ tle (tsub t w) t0 = true.

Lemma init_sim : sim sy ms SL ML (core (new_filter sy ms x P t0)) (core (new_filter sy ms x P t0)).
Proof.
  assert (Ho : obj_ok ms SL ML (core (new_filter sy ms x P t0))).
  { split; [apply (ml_sys0 _ _ _ _ _ HM)|]. intros k. simpl. destruct (nth_error ms k) eqn:Ek; auto.
    apply (ml_ms0 _ _ _ _ _ HM); auto. }
  split; [split; [reflexivity|split; exact Ho]|]. split; [reflexivity|].
  split; [reflexivity|]. left; exact Hv.
Qed.

(** C11, true part (also C19): any sequence of calls - direct, enqueueing, clearing queues,
    processing them - such that a measurement is never processed after a newer control gives the
    estimate of the processed inputs in time order. *)
Theorem C11_late_mixed_partial ops l s :
  all_allowed (s_Rc sy) (mkDel [] []) ops ->
  NoDup (timestamps ops) -> Forall in_window (timestamps ops) ->
  Permutation l (processed (delivered (s_Rc sy) ops)) -> in_time_order l ->
  run L (rewinding w past ops) (new_filter sy ms x P t0) = Ok s ->
  exists s', run L (rewinding w past (map call_of l)) (new_filter sy ms x P t0) = Ok s' /\ est s' = est s.
Proof.
  intros Hal Hnd Hts Hp Hs Hr. rewrite run_rewinding in *.
  eapply (out_of_order_equals_in_order L Hlib Hsort Hx sy ms SL ML HM (core (new_filter sy ms x P t0)) init_sim w);
    eauto.
Qed.

Definition pu (c : V E * TT) : Op (E := E) := OpPredictU (fst c) (snd c).
Definition co (m : V E * Mx E * TT * option nat) : Op (E := E) :=
  let '(z, Q, t, k) := m in OpCorrect z Q t k.
Definition m_time (m : V E * Mx E * TT * option nat) : TT := snd (fst m).

Lemma timestamps_pu us : timestamps (map pu us) = map snd us.
Proof. induction us as [|[u t] us IH]; [reflexivity|]. change (t :: timestamps (map pu us) = t :: map snd us). congruence. Qed.
Lemma timestamps_co us : timestamps (map co us) = map m_time us.
Proof. induction us as [|[[[z Q] t] k] us IH]; [reflexivity|]. change (t :: timestamps (map co us) = t :: map m_time us). congruence. Qed.

Lemma delivered_pu us : forall d, fold_left (deliver (s_Rc sy)) (map pu us) d =
  mkDel (processed d ++ map (fun c => ctl_input (s_Rc sy) (fst c) (snd c)) us) (waiting d).
Proof.
  induction us as [|[u t] us IH]; intros d; simpl.
  - rewrite app_nil_r. destruct d; reflexivity.
  - rewrite IH. simpl. rewrite <- app_assoc. reflexivity.
Qed.
Lemma delivered_co us : forall d, fold_left (deliver (s_Rc sy)) (map co us) d =
  mkDel (processed d ++ map (fun m => let '(z, Q, t, k) := m in meas_input z Q t k) us) (waiting d).
Proof.
  induction us as [|[[[z Q] t] k] us IH]; intros d; simpl.
  - rewrite app_nil_r. destruct d; reflexivity.
  - rewrite IH. simpl. rewrite <- app_assoc. reflexivity.
Qed.

Lemma allowed_pu us : Forall (fun c => 0 < vsize (fst c)) us -> forall d,
  all_allowed (s_Rc sy) d (map pu us).
Proof.
  induction 1 as [|[u t] us Hu Hus IH]; intros d; simpl; auto. split; auto. left. split; auto.
Qed.
Lemma allowed_co us : forall d, Forall (fun i => i_ctl i = false) (processed d) ->
  all_allowed (s_Rc sy) d (map co us).
Proof.
  induction us as [|[[[z Q] t] k] us IH]; intros d Hd; simpl; auto. split.
  - right. eapply Forall_impl; [|exact Hd]. intros i Hi (Hc & _). congruence.
  - apply IH. simpl. apply Forall_app; split; auto.
Qed.

(** C09: [us] in any order, [us'] the same controls in time order *)
Theorem C09_late_controls us us' s :
  Forall (fun c => 0 < vsize (fst c)) us ->
  NoDup (map snd us) -> Forall in_window (map snd us) ->
  Permutation us' us -> StronglySorted (fun a b => tlt (snd a) (snd b) = true) us' ->
  run L (rewinding w past (map (fun c => OpPredictU (fst c) (snd c)) us)) (new_filter sy ms x P t0) = Ok s ->
  exists s', run L (rewinding w past (map (fun c => OpPredictU (fst c) (snd c)) us')) (new_filter sy ms x P t0) = Ok s'
    /\ est s' = est s.
Proof.
  intros Hu Hnd Hwin Hp Hs Hr.
  destruct (C11_late_mixed_partial (map pu us) (map (fun c => ctl_input (s_Rc sy) (fst c) (snd c)) us') s)
    as (s' & H1 & H2); auto.
  - apply allowed_pu; auto.
  - rewrite timestamps_pu; auto.
  - rewrite timestamps_pu; auto.
  - unfold delivered. rewrite delivered_pu. simpl. apply Permutation_map; auto.
  - unfold in_time_order. clear -Hs. induction Hs as [|a l Hs IH Ha]; simpl; constructor; auto.
    rewrite Forall_forall in *. intros i Hi. apply in_map_iff in Hi as (b & <- & Hb). simpl. auto.
  - exists s'. split; auto. rewrite map_map in H1. exact H1.
Qed.

(** C10 *)
Theorem C10_late_measurements zs zs' s :
  NoDup (map m_time zs) -> Forall in_window (map m_time zs) ->
  Permutation zs' zs -> StronglySorted (fun a b => tlt (m_time a) (m_time b) = true) zs' ->
  run L (rewinding w past (map (fun m => let '(z, Q, t, k) := m in OpCorrect z Q t k) zs)) (new_filter sy ms x P t0) = Ok s ->
  exists s', run L (rewinding w past (map (fun m => let '(z, Q, t, k) := m in OpCorrect z Q t k) zs')) (new_filter sy ms x P t0) = Ok s'
    /\ est s' = est s.
Proof.
  intros Hnd Hwin Hp Hs Hr.
  destruct (C11_late_mixed_partial (map co zs) (map (fun m => let '(z, Q, t, k) := m in meas_input z Q t k) zs') s)
    as (s' & H1 & H2); auto.
  - apply allowed_co. constructor.
  - rewrite timestamps_co; auto.
  - rewrite timestamps_co; auto.
  - unfold delivered. rewrite delivered_co. simpl. apply Permutation_map; auto.
  - unfold in_time_order. clear -Hs. induction Hs as [|[[[z Q] t] k] l Hs IH Ha]; simpl; constructor; auto.
    rewrite Forall_forall in *. intros i Hi. apply in_map_iff in Hi as ([[[z' Q'] t'] k'] & <- & Hb). simpl.
    apply (Ha _ Hb).
  - exists s'. split; auto. rewrite map_map in H1.
    erewrite map_ext in H1; [exact H1|]. intros [[[z Q] t] k]. reflexivity.
Qed.
End Late.

Ltac wins := unfold in_window; repeat constructor; unfold zfin, zt, m_time; simpl; eauto.
(** Controls at 3, 1, 2 and measurements at 3, 1, 2 really are processed *)
Example C09_nonvacuous :
  let us := [(zd [5%Z], zt 3); (zd [6%Z], zt 1); (zd [7%Z], zt 2)] in
  Memoryless ZE zsys [0%Z] (fun s => s = zsys) (fun _ _ => True) /\ SortOk GL /\
  NoDup (map snd us) /\ Forall (in_window (fin := zfin) (zt 0) (zt 100)) (map snd us) /\
  exists s : St ZE, run GL (rewinding (zt 100) false (map (fun c => OpPredictU (fst c) (snd c)) us)) znew0 = Ok s
    /\ (getState s = [TPred [6%Z] 7%Z (zt 1); TPred [7%Z] 7%Z (zt 1); TPred [5%Z] 7%Z (zt 1)] /\ getStateTime s = zt 3).
Proof.
  intros us. split; [apply trace_memoryless|]. split; [apply gnu_sort_ok|].
  split; [repeat constructor; simpl; intuition discriminate|].
  split; [wins|]. okex.
Qed.
Example C10_nonvacuous :
  let zs := [(zd [5%Z], 1%Z, zt 3, Some 0); (zd [6%Z], 2%Z, zt 1, Some 0); (zd [7%Z], 3%Z, zt 2, Some 0)] in
  NoDup (map m_time zs) /\ Forall (in_window (fin := zfin) (zt 0) (zt 100)) (map m_time zs) /\
  exists s : St ZE, run GL (rewinding (zt 100) false (map (fun m => let '(z, Q, t, k) := m in OpCorrect z Q t k) zs)) znew0 = Ok s
    /\ (filter (fun k => match k with TCorr _ _ _ => true | _ => false end) (getState s)
        = [TCorr [6%Z] 2%Z (zt 1); TCorr [7%Z] 3%Z (zt 1); TCorr [5%Z] 1%Z (zt 1)] /\ getStateTime s = zt 3).
Proof.
  intros zs. split; [repeat constructor; simpl; intuition discriminate|].
  split; [wins|]. okex.
Qed.

(** C11: the full claim, for direct calls *)
Definition C11_claim : Prop :=
  forall (TT : TimeOps) (E : Env TT) (L : Lib E) fin sy ms SL ML x P t0 w past (ins ins' : list (FInput E)) s,
  lib_strict L = false -> SortOk L -> ExactTime TT fin -> Memoryless E sy ms SL ML -> vsize (vempty : V E) = 0 ->
  fin t0 -> fin w -> tle (tsub t0 w) t0 = true ->
  NoDup (map i_ts ins) -> Forall (in_window (fin := fin) t0 w) (map i_ts ins) ->
  Permutation ins' ins -> in_time_order ins' ->
  run L (rewinding w past (map call_of ins)) (new_filter sy ms x P t0) = Ok s ->
  exists s', run L (rewinding w past (map call_of ins')) (new_filter sy ms x P t0) = Ok s' /\ est s' = est s.

(** u1 at 1, u2 at 3, then a measurement at 2: the state is advanced from 1 to 2 with u2 instead
    of u1 *)
Definition c11_c (u : Z) (t : Z) : FInput ZE := ctl_input (E := ZE) 7%Z (zd [u]) (zt t).
Definition c11_m (z : Z) (t : Z) : FInput ZE := meas_input (E := ZE) (zd [z]) 1%Z (zt t) (Some 0).
Theorem C11_refuted : ~ C11_claim.
Proof.
  intros H.
  unshelve epose proof (H ZTime ZE GL zfin zsys [0%Z] (fun s => s = zsys) (fun _ _ => True) (zd []) 0%Z (zt 0) (zt 100) false
    [c11_c 1 1; c11_c 2 3; c11_m 9 2] [c11_c 1 1; c11_m 9 2; c11_c 2 3] _
    eq_refl (gnu_sort_ok ZE) ZTime_exact (trace_memoryless 1 7 None [0%Z]) eq_refl
    ltac:(zfins) ltac:(zfins) eq_refl _ _ _ _ (got_ok _ znew0 _)) as C; [..|okall|].
  - repeat constructor; simpl; intuition discriminate.
  - wins.
  - apply perm_skip, perm_swap.
  - repeat constructor.
  - destruct C as (s' & H1 & H2).
    apply (f_equal zest) in H2.
    assert (E1 : s' = got (run GL (rewinding (zt 100) false (map call_of [c11_c 1 1; c11_m 9 2; c11_c 2 3]))
      (new_filter (E := ZE) zsys [0%Z] (zd []) 0%Z (zt 0))) znew0) by (rewrite H1; reflexivity).
    rewrite E1 in H2. vm_compute in H2. discriminate H2.
Qed.

(** The restriction of the partial theorem is met by late controls and measurements mixed *)
Example C11_nonvacuous :
  let ops := [OpPredictU (E := ZE) (zd [1%Z]) (zt 3); OpPredictU (zd [2%Z]) (zt 1); OpCorrect (zd [9%Z]) 1%Z (zt 6) (Some 0);
              OpCorrect (zd [8%Z]) 1%Z (zt 5) (Some 0); OpEnqC (zd [4%Z]) (zt 2); OpEnqM (zd [7%Z]) 1%Z (zt 4) (Some 0); OpProcess] in
  all_allowed (E := ZE) (s_Rc zsys) (mkDel [] []) ops /\
  NoDup (timestamps ops) /\ Forall (in_window (fin := zfin) (zt 0) (zt 100)) (timestamps ops) /\
  exists s : St ZE, run GL (rewinding (zt 100) false ops) znew0 = Ok s /\ (getStateTime s = zt 6 /\ length (getState s) = 9).
Proof.
  intros ops. split; [|split; [|split; [|okex]]].
  - simpl. unfold mergeable, newer_than_controls, is_control; simpl.
    split; [left; split; [reflexivity|lia]|]. split; [left; split; [reflexivity|lia]|].
    split; [right; repeat (constructor; [intros; reflexivity|]); constructor|].
    split; [right; repeat (constructor; [intros (?A & ?B); try discriminate A; reflexivity|]); constructor|].
    split; [exact I|]. split; [exact I|]. split; [|exact I].
    intros i [<-|[<-|[]]] Hi; [left; split; [reflexivity|simpl; lia]|].
    specialize (Hi _ (or_introl eq_refl)). discriminate Hi.
  - repeat constructor; simpl; intuition discriminate.
  - wins.
Qed.

(** ** C12: history *)
(** the calls of C05: predict and correct *)
Definition retained_since {TT} {E : Env TT} (s : St E) (t : TT) : Prop :=
  Forall (fun f => tlt (f_ts f) t = false) (hist s).

Lemma retained_since_b {TT} {E : Env TT} (s : St E) t :
  retained_since s t -> forallb (fun f => negb (tlt (f_ts f) t)) (hist s) = true.
Proof. intros H. apply forallb_forall. unfold retained_since in H. rewrite Forall_forall in H. intros f Hf. rewrite (H f Hf). reflexivity. Qed.

Definition C12_claim : Prop :=
  forall (TT : TimeOps) (E : Env TT) (L : Lib E) fin sy ms x P t0 w past ops s,
  lib_strict L = false -> ExactTime TT fin -> fin t0 -> fin w -> tle tzero w = true ->
  Forall (direct_op (fin := fin)) ops ->
  run L (rewinding w past ops) (new_filter sy ms x P t0) = Ok s ->
  (* nothing older than the window is retained ... *)
  retained_since s (tsub (getStateTime s) (p_window (par s))) /\
  (* ... so that it cannot be reverted to *)
  (forall t, fin t -> tle t (tsub (getStateTime s) (p_window (par s))) = true -> exists s', revertToState L s t = Ok (s', false)).

(** Controls at 1, 2, ..., 5 with a window of 1: the initial state is still there *)
Theorem C12_refuted : ~ C12_claim.
Proof.
  intros H.
  unshelve epose proof (H ZTime ZE GL zfin zsys [0%Z] (zd []) 0%Z (zt 0) (zt 1) false
    [OpPredictU (zd [1%Z]) (zt 1); OpPredictU (zd [1%Z]) (zt 2); OpPredictU (zd [1%Z]) (zt 3); OpPredictU (zd [1%Z]) (zt 4)] _
    eq_refl ZTime_exact ltac:(zfins) ltac:(zfins) eq_refl ltac:(zfins) (got_ok _ znew0 _)) as C; [okall|].
  destruct C as (C & _). apply retained_since_b in C. vm_compute in C. discriminate C.
Qed.

(** What an accepted on-time call does to the history (rewinding on) *)
Lemma on_time_hist {TT} {E : Env TT} (L : Lib E) {fin} (Hlib : lib_strict L = false) (Hx : ExactTime TT fin)
    (s s' : St E) (o : Op (E := E)) t :
  p_rewind (par s) = true -> fin t -> fin (getStateTime s) ->
  (o = OpPredictT t /\ tlt (getStateTime s) t = true \/ exists i, o = call_of i /\ i_ts i = t /\ tle (getStateTime s) t = true) ->
  step L s o = Ok s' ->
  par s' = par s /\ getStateTime s' = t /\
  hist s' = drop_old_suffix (tsub t (p_window (par s))) (hist s ++ [c_cur (core s)]).
Proof.
  intros Hr Ft Fn Ho Hst.
  assert (Hgo : forall i, i_ts i = t -> tle (getStateTime s) t = true ->
     (let* s1 := applyInput s i in pruneHistory L s1) = Ok s' ->
     par s' = par s /\ getStateTime s' = t /\
     hist s' = drop_old_suffix (tsub t (p_window (par s))) (hist s ++ [c_cur (core s)])).
  { intros i Hi Hle Ha. apply obind_ok in Ha as (s1 & H1 & H2). apply applyInput_ok in H1 as (c & Hc & ->).
    rewrite pruneHistory_char in H2 by auto. simpl in H2. rewrite Hr in H2. injection H2 as <-. simpl.
    apply input_core_time in Hc as (Ht & _). unfold time_of in Ht. rewrite (time_after_ge Hx) in Ht; auto; try (rewrite Hi; auto).
    unfold getStateTime; simpl. rewrite Ht, Hi. auto. }
  destruct Ho as [(-> & Hlt)|(i & -> & Hi & Hle)].
  - cbn [step] in Hst. unfold predict_t in Hst. rewrite Hlt in Hst. eapply Hgo; [| |exact Hst]; [reflexivity|].
    apply (tlt_le Hx); auto.
  - assert (Hno : tlt t (getStateTime s) = false) by (apply (tlt_false_iff Hx); auto).
    assert (Hl : forall j, i_ts j = t -> apply_late L s j = Ok s' -> (let* s1 := applyInput s j in pruneHistory L s1) = Ok s').
    { intros j Hj. unfold apply_late. rewrite Hj, Hno. cbn [obind negb map]. unfold applyBatchInputs. cbn [ofold].
      destruct (applyInput s j); auto. }
    unfold call_of in Hst. destruct (i_ctl i); cbn [step] in Hst.
    + unfold predict_u in Hst. rewrite Hr in Hst. simpl in Hst. apply Hl in Hst; auto. eapply Hgo; [| |exact Hst]; auto.
    + unfold correct in Hst. rewrite Hr in Hst. simpl in Hst. apply Hl in Hst; auto. eapply Hgo; [| |exact Hst]; auto.
Qed.

(** C12, what is true instead: as long as consecutive inputs are not more than a window apart,
    nothing is ever pruned, so the history grows by one state per input, for any number of
    inputs.  (And see C13: nothing inside the window is pruned.) *)
Fixpoint steady {TT} {E : Env TT} (fin : TT -> Prop) (w t : TT) (l : list (FInput E)) : Prop :=
  match l with
  | [] => True
  | i :: l' => fin (i_ts i) /\ tle t (i_ts i) = true /\ tlt t (tsub (i_ts i) w) = false /\ steady fin w (i_ts i) l'
  end.

Theorem C12_history_grows_partial {TT} {E : Env TT} (L : Lib E) {fin} sy ms x P t0 w past (l : list (FInput E)) s :
  lib_strict L = false -> ExactTime TT fin -> fin t0 -> steady fin w t0 l ->
  run L (rewinding w past (map call_of l)) (new_filter sy ms x P t0) = Ok s ->
  length (hist s) = length l.
Proof.
  intros Hlib Hx Ft Hst Hr. rewrite run_rewinding in Hr.
  assert (H : forall l (s0 : St E) s, p_rewind (par s0) = true -> p_window (par s0) = w -> fin (getStateTime s0) ->
    steady fin w (getStateTime s0) l -> run L (map call_of l) s0 = Ok s -> length (hist s) = length (hist s0) + length l).
  { clear -Hlib Hx. induction l as [|i l IH]; intros s0 s Hr Hw Fn Hs Hrun; unfold run in Hrun; cbn [map ofold] in Hrun.
    - injection Hrun as <-. simpl. lia.
    - apply obind_ok in Hrun as (s1 & H1 & H2). destruct Hs as (Fi & Hle & Hgap & Hs).
      eapply (on_time_hist L Hlib Hx) in H1 as (Hp & Ht & Hh); [|auto|exact Fi|auto|right; eauto].
      assert (Hh' : hist s1 = hist s0 ++ [c_cur (core s0)]).
      { rewrite Hh. unfold drop_old_suffix. rewrite rev_app_distr. cbn [rev app drop_while]. unfold older_than at 1.
        rewrite Hw. unfold getStateTime in Hgap. rewrite Hgap. simpl. rewrite rev_involutive. reflexivity. }
      rewrite (IH s1 s); auto; try congruence; rewrite ?Ht; auto.
      rewrite Hh', app_length. simpl. lia. }
  apply (H l) in Hr; auto.
Qed.
Example C12_grows_nonvacuous : steady (E := ZE) zfin (zt 1) (zt 0) [c11_c 1 1; c11_m 1 1; c11_c 1 2; c11_c 1 3].
Proof. simpl. unfold zfin, zt. repeat split; eauto. Qed.

(** ** C13: on-time calls prune only states that are older than the window; the history need not
    even be ordered *)
Theorem C13_window_kept {TT} {E : Env TT} (L : Lib E) {fin} (s s' : St E) (o : Op (E := E)) t :
  lib_strict L = false -> ExactTime TT fin ->
  p_rewind (par s) = true -> fin t -> fin (getStateTime s) ->
  (o = OpPredictT t /\ tlt (getStateTime s) t = true \/ exists i, o = call_of i /\ i_ts i = t /\ tle (getStateTime s) t = true) ->
  step L s o = Ok s' ->
  forall f, In f (hist s ++ [c_cur (core s)]) ->
  tlt (f_ts f) (tsub (getStateTime s') (p_window (par s'))) = false -> In f (hist s').
Proof.
  intros Hlib Hx Hr Ft Fn Ho Hst f Hin Hw.
  apply (on_time_hist L Hlib Hx s s' o t Hr Ft Fn Ho) in Hst as (Hp & Ht & Hh). rewrite Hp, Ht in Hw. rewrite Hh.
  destruct (drop_old_suffix_spec (tsub t (p_window (par s))) (hist s ++ [c_cur (core s)])) as (d & Hd & Hold & _).
  rewrite Hd in Hin. apply in_app_or in Hin as [Hin|Hin]; auto.
  rewrite Forall_forall in Hold. specialize (Hold f Hin). unfold older_than in Hold. congruence.
Qed.
(** the pruning step itself, for every filter and history *)
Theorem C13_prune_keeps_window {TT} {E : Env TT} (L : Lib E) (s s' : St E) :
  lib_strict L = false -> pruneHistory L s = Ok s' ->
  forall f, In f (hist s) -> tlt (f_ts f) (tsub (getStateTime s) (p_window (par s))) = false -> In f (hist s').
Proof.
  intros Hlib Hp f Hin Hw. rewrite pruneHistory_char in Hp by auto. destruct (p_rewind (par s)); injection Hp as <-; auto. simpl.
  destruct (drop_old_suffix_spec (tsub (f_ts (c_cur (core s))) (p_window (par s))) (hist s)) as (d & Hd & Hold & _).
  rewrite Hd in Hin. apply in_app_or in Hin as [Hin|Hin]; auto.
  rewrite Forall_forall in Hold. specialize (Hold f Hin). unfold older_than in Hold. unfold getStateTime in Hw. congruence.
Qed.
Example C13_nonvacuous : exists s : St ZE,
  run GL [OpPredictU (zd [1%Z]) (zt 50); OpPredictU (zd [1%Z]) (zt 120)] (znew P_on) = Ok s /\
  (map f_ts (hist s) = [zt 0; zt 50] /\ getStateTime s = zt 120).
Proof. okex. Qed.

(** ** C14: revertToState *)
Theorem C14_revert {TT} {E : Env TT} (L : Lib E) {fin} (s : St E) t :
  lib_strict L = false -> ExactTime TT fin -> fin t -> TimeSorted (fin := fin) (hist s ++ [c_cur (core s)]) ->
  exists s' b, revertToState L s t = Ok (s', b) /\
  (b = true <-> tlt (getStateTime s) t = true \/ exists f, In f (hist s) /\ tlt (f_ts f) t = true) /\
  (b = true -> tlt (getStateTime s) t = true -> est s' = est s /\ hist s' = hist s /\ cq s' = [] /\ mq s' = []) /\
  (b = true -> tle t (getStateTime s) = true ->
     exists f later, hist s = hist s' ++ f :: later            (* what is kept, [f], what is forgotten *)
       /\ est s' = (f_x f, f_cov f, f_ts f) /\ tlt (f_ts f) t = true
       /\ Forall (fun g => tle t (f_ts g) = true) later /\ cq s' = [] /\ mq s' = []).
Proof.
  intros Hlib Hx Ft Hs.
  assert (Fn : fin (getStateTime s)).
  { destruct Hs as (Hs & _). apply Forall_app in Hs as (_ & Hs). inversion Hs; auto. }
  destruct (tlt (getStateTime s) t) eqn:Et.
  - exists (clearMeasurementQueue (clearControlQueue s)), true. unfold revertToState, rewindHistory.
    unfold getStateTime in Et. rewrite Et. simpl. split; [reflexivity|]. split; [tauto|]. split; [auto|].
    intros _ Hle. fold (getStateTime s) in Et. apply (tlt_iff Hx) in Et; auto. congruence.
  - assert (Hle : tle t (getStateTime s) = true) by (apply (tlt_false_iff Hx); auto).
    assert (Hfront : (exists f, In f (hist s) /\ tlt (f_ts f) t = true) <->
                     exists front, nth_error (hist s) 0 = Some front /\ tlt (f_ts front) t = true).
    { split.
      - intros (f & Hin & Hlt). destruct (hist s) as [|fr h] eqn:Eh; [contradiction|]. exists fr. split; auto.
        destruct Hs as (Fs & Hs). simpl in Fs, Hs. inversion Fs; subst. inversion Hs as [|? ? Hs' Ha]; subst.
        destruct Hin as [->|Hin]; auto. rewrite Forall_forall in Ha.
        assert (Ff : fin (f_ts f)). { rewrite Forall_forall in H2. apply H2. apply in_or_app; auto. }
        eapply (tle_lt_trans Hx _ (f_ts f)); auto. apply Ha. apply in_or_app; auto.
      - intros (fr & Hn & Hlt). exists fr. split; auto. eapply nth_error_In; eauto. }
    destruct (nth_error (hist s) 0) as [fr|] eqn:En.
    + destruct (tlt (f_ts fr) t) eqn:Ef.
      * destruct (revert_char L Hlib Hx s t) as (h1 & back & post & A & B & C & D); eauto.
        exists (mkSt (par s) (set_cur (core s) back) h1 [] []), true. split; [exact D|].
        split; [split; auto; intros _; right; apply Hfront; eauto|]. split; [discriminate|].
        intros _ _. exists back, post. simpl. auto 10.
      * exists s, false. split.
        { unfold revertToState, rewindHistory. unfold getStateTime in Et. rewrite Et.
          destruct (hist s) as [|fr' h]; [discriminate|]. injection En as ->. rewrite Ef. reflexivity. }
        split; [|split; discriminate]. split; [discriminate|]. intros [|H]; [discriminate|].
        apply Hfront in H as (f & [= <-] & H). congruence.
    + exists s, false. destruct (hist s) as [|fr' h] eqn:Eh; [|discriminate]. split.
      { unfold revertToState, rewindHistory. unfold getStateTime in Et. rewrite Et, Eh. reflexivity. }
      split; [|split; discriminate]. split; [discriminate|]. intros [|(f & [] & _)]; discriminate.
Qed.
(** every history produced by predict and correct calls is ordered *)
Theorem C14_histories_ordered {TT} {E : Env TT} (L : Lib E) {fin} sy ms x P t0 w past ops s :
  lib_strict L = false -> ExactTime TT fin -> fin t0 -> Forall (direct_op (fin := fin)) ops ->
  run L (rewinding w past ops) (new_filter sy ms x P t0) = Ok s ->
  TimeSorted (fin := fin) (hist s ++ [c_cur (core s)]).
Proof.
  intros Hlib Hx Ft Ho Hr. rewrite run_rewinding in Hr.
  assert (HI : TimeInv (fin := fin) (mkSt (mkParams true w past) (core (new_filter (E := E) sy ms x P t0)) [] [] [])).
  { apply (TimeInv_init (fin := fin) (mkSt (mkParams true w past) (mkCore default_fstate vempty mempty sy ms) [] [] []) x P t0 Ft). }
  apply (direct_run L Hlib Hx) in Hr as ((_ & Hc) & Hp & _); auto. apply Hc. rewrite Hp. reflexivity.
Qed.
Example C14_nonvacuous : exists r : St ZE * bool,
  revertToState GL (zrun P_on [OpPredictU (zd [1%Z]) (zt 2); OpPredictU (zd [2%Z]) (zt 4); OpPredictU (zd [3%Z]) (zt 6)]) (zt 4) = Ok r
  /\ (snd r = true /\ getState (fst r) = [TPred [1%Z] 7%Z (zt 2)] /\ length (hist (fst r)) = 1).
Proof. okex. Qed.

(** ** C15: nothing happens on rejection, whatever the history looks like *)
Theorem C15_rejected_noop {TT} {E : Env TT} (L : Lib E) (s : St E) :
  (forall t s', revertToState L s t = Ok (s', false) -> s' = s) /\
  (CmpOk TT -> p_rewind (par s) = true -> forall t,
     tlt t (getStateTime s) = true ->
     (forall oldest, nth_error (hist s) 0 = Some oldest -> tlt (f_ts oldest) t = false) ->
     (forall u, step L s (OpPredictU u t) = Ok s) /\ (forall z Q m, step L s (OpCorrect z Q t m) = Ok s)).
Proof.
  split.
  - intros. eapply revert_false_noop; eauto.
  - intros Hc Hr t Hlt Hf. split; intros; cbn [step]; unfold predict_u, correct; rewrite Hr; simpl;
    apply too_old_rejected; auto.
Qed.
Example C15_nonvacuous :
  let s := zrun (mkParams true (zt 2) false) [OpPredictU (zd [1%Z]) (zt 2); OpPredictU (zd [2%Z]) (zt 9)] in
  tlt (zt 8) (getStateTime s) = true /\ length (hist s) = 0 /\
  exists r, revertToState GL s (zt 1) = Ok r /\ snd r = false.
Proof. intros s. split; [vm_compute; reflexivity|]. split; [vm_compute; reflexivity|]. okex. Qed.

(** ** C16: with iterators that survive pop_back, no history makes rewinding or reverting read or
    pop a missing element, and pruning is safe, for every arithmetic of doubles (NaN included) *)
Theorem C16_rewind_safe {TT} {E : Env TT} (L : Lib E) (s : St E) t :
  CmpOk TT -> lib_strict L = false ->
  (exists r, revertToState L s t = Ok r) /\ (exists r, rewindHistory L s t = Ok r) /\ (exists r, pruneHistory L s = Ok r).
Proof.
  intros Hc Hlib. assert (H : rewindHistory L s t = Ok (rewind_result s t)) by (apply rewindHistory_char; auto; exact (proj2 Hc)).
  split; [|split].
  - unfold revertToState. rewrite H. destruct (rewind_result s t) as [[[|] s1] post]; simpl; eauto.
  - eauto.
  - rewrite pruneHistory_char; eauto.
Qed.
(** ... hence the only undefined behaviour of an API call is that of the algorithm, the models or
    std::sort: a call that processes inputs fails only if [input_core] does or the timestamps
    contain a NaN. *)
Theorem C16_api_safe {TT} {E : Env TT} (L : Lib E) (s : St E) (o : Op (E := E)) :
  CmpOk TT -> lib_strict L = false ->
  (forall c i, exists c', input_core (E := E) c i = Ok c') ->
  (o = OpProcess -> forall l, exists l', std_sort L l = Ok l') ->
  exists s', step L s o = Ok s'.
Proof.
  intros Hc Hlib Hi Hso.
  assert (Hpr : forall s, exists s', pruneHistory L s = Ok s') by (intros; apply C16_rewind_safe; auto; exact tzero).
  assert (Hai : forall (s : St E) i, exists s', applyInput s i = Ok s').
  { intros s0 i. unfold applyInput. destruct (Hi (core s0) i) as (c & ->). simpl. eauto. }
  assert (Hap : forall s i, exists s', (let* s1 := applyInput s i in pruneHistory L s1) = Ok s').
  { intros s0 i. destruct (Hai s0 i) as (s1 & ->). simpl. auto. }
  assert (Hba : forall l s, exists s', applyBatchInputs L s l = Ok s').
  { intros l. unfold applyBatchInputs. induction l as [|i l IH]; intros s0; cbn [ofold]; [simpl; auto|].
    destruct (Hai s0 i) as (s1 & ->). cbn [obind]. apply IH. }
  assert (Hrw : forall s t, rewindHistory L s t = Ok (rewind_result s t)).
  { intros. apply rewindHistory_char; auto. exact (proj2 Hc). }
  assert (Hla : forall i, exists s', apply_late L s i = Ok s').
  { intros i. unfold apply_late. destruct (tlt (i_ts i) (getStateTime s)).
    - rewrite Hrw. destruct (rewind_result s (i_ts i)) as [[[|] s1] post]; cbn [obind negb]; eauto.
    - cbn [obind negb]. auto. }
  destruct o; cbn [step]; eauto.
  - unfold predict_t. destruct (tlt (getStateTime s) t); eauto.
  - unfold predict_u. destruct (negb (p_rewind (par s))); eauto. destruct (tle (getStateTime s) t); eauto.
  - unfold correct. destruct (negb (p_rewind (par s))); eauto. destruct (p_past (par s) || _); eauto.
  - unfold processQueues. simpl.
    assert (H1 : exists r, (if p_rewind (par s) then
      let* (_, s1, post) := rewindHistory L (mkSt (par s) (core s) (hist s) (pruneQueue s (cq s)) (pruneQueue s (mq s)))
         (fold_left tmin (map i_ts (pruneQueue s (cq s) ++ pruneQueue s (mq s))) tinf) in Ok (s1, post)
      else Ok (mkSt (par s) (core s) (hist s) (pruneQueue s (cq s)) (pruneQueue s (mq s)), [])) = Ok r).
    { destruct (p_rewind (par s)); eauto. rewrite Hrw. destruct (rewind_result _ _) as [[b s1] post]. cbn [obind]. eauto. }
    destruct H1 as ((s1 & post) & ->). cbn [obind].
    destruct (Hso eq_refl (map f_prev post ++ cq s1 ++ mq s1)) as (l' & ->). cbn [obind].
    destruct (Hba l' s1) as (s2 & ->). simpl. eauto.
  - unfold revertToState. rewrite Hrw. destruct (rewind_result s t) as [[[|] s1] post]; simpl; eauto.
Qed.
Example C16_nonvacuous :
  (* an unordered history *)
  let f t := mkFState (E := ZE) [] 0%Z (zt t) default_input in
  is_ok (revertToState GL (mkSt P_on (core (znew P_on)) [f (-3)%Z; f 9%Z; f (-7)%Z; f 8%Z; f 8%Z] [] []) (zt (-1))) = true.
Proof. reflexivity. Qed.

(** ** C17: under the iterator rules of the C++ standard *)
Definition C17_claim : Prop :=
  forall (TT : TimeOps) (E : Env TT) (L : Lib E) sy ms x P t0 ops,
  run L ops (new_filter sy ms x P t0) <> Ub ub_bad_iter.

(** controls at 2 and 4, then one at 1 *)
Theorem C17_refuted : ~ C17_claim.
Proof.
  intros H. apply (H ZTime ZE (strict_lib ZE) zsys [0%Z] (zd []) 0%Z (zt 0)
    (rewinding (zt 100) false [OpPredictU (zd [1%Z]) (zt 2); OpPredictU (zd [2%Z]) (zt 4); OpPredictU (zd [3%Z]) (zt 1)])).
  vm_compute. reflexivity.
Qed.
(** It is not a corner case: every rewind that discards the newest state of the history does it *)
Theorem C17_every_discard_undefined {TT} {E : Env TT} (L : Lib E) (s : St E) h newest t :
  lib_strict L = true -> hist s = h ++ [newest] -> tle t (f_ts newest) = true ->
  tlt (getStateTime s) t = false -> (forall f, nth_error (hist s) 0 = Some f -> tlt (f_ts f) t = true) ->
  revertToState L s t = Ub ub_bad_iter.
Proof.
  intros Hl Hh Hle Hn Hf. unfold revertToState, rewindHistory. unfold getStateTime in Hn. rewrite Hn.
  destruct (hist s) as [|fr h0] eqn:Eh; [destruct h; discriminate|].
  rewrite (Hf fr eq_refl). rewrite Hh. rewrite app_length, Nat.add_1_r. cbn [rewind_loop].
  rewrite nth_error_app2, Nat.sub_diag by lia. cbn [nth_error]. rewrite Hle.
  destruct (h ++ [newest]) as [|a l] eqn:Ea; [destruct h; discriminate|]. rewrite <- Ea.
  unfold pop_ok. rewrite Hl. simpl negb. rewrite orb_false_l.
  assert (E1 : (S (S (length h)) <? length (h ++ [newest])) = false).
  { apply Nat.ltb_ge. rewrite app_length. simpl. lia. }
  rewrite E1. reflexivity.
Qed.

(** ** C28: equal timestamps *)
Definition C28_claim : Prop :=
  forall (TT : TimeOps) (E : Env TT) (L : Lib E) fin sy ms SL ML x P t0 w past (ins ins' : list (FInput E)) s s',
  lib_strict L = false -> SortOk L -> ExactTime TT fin -> Memoryless E sy ms SL ML -> vsize (vempty : V E) = 0 ->
  fin t0 -> fin w -> tle (tsub t0 w) t0 = true ->
  Forall is_control ins -> Forall (in_window (fin := fin) t0 w) (map i_ts ins) ->
  (* [ins'] is the stable sort of [ins] *)
  Permutation ins' ins -> StronglySorted (fun a b => tle (i_ts a) (i_ts b) = true) ins' ->
  (forall (b : FInput E -> bool) t, (forall i, b i = true <-> i_ts i = t) -> filter b ins' = filter b ins) ->
  run L (rewinding w past (map call_of ins)) (new_filter sy ms x P t0) = Ok s ->
  run L (rewinding w past (map call_of ins')) (new_filter sy ms x P t0) = Ok s' -> est s = est s'.

(** a at 1, b at 2, c at 1: c is applied before a *)
Theorem C28_refuted : ~ C28_claim.
Proof.
  intros H.
  unshelve epose proof (H ZTime ZE GL zfin zsys [0%Z] (fun s => s = zsys) (fun _ _ => True) (zd []) 0%Z (zt 0) (zt 100) false
    [c11_c 1 1; c11_c 2 2; c11_c 3 1] [c11_c 1 1; c11_c 3 1; c11_c 2 2] _ _
    eq_refl (gnu_sort_ok ZE) ZTime_exact (trace_memoryless 1 7 None [0%Z]) eq_refl
    ltac:(zfins) ltac:(zfins) eq_refl _ _ _ _ _ (got_ok _ znew0 _) (got_ok _ znew0 _)) as C; [..|okall|okall|].
  - repeat constructor.
  - wins.
  - apply perm_skip, perm_swap.
  - repeat constructor.
  - intros b t Hb. cbn [filter]. pose proof (Hb (c11_c 1 1)) as H1. pose proof (Hb (c11_c 3 1)) as H3. pose proof (Hb (c11_c 2 2)) as H2.
    change (i_ts (c11_c 1 1)) with (zt 1) in H1. change (i_ts (c11_c 3 1)) with (zt 1) in H3. change (i_ts (c11_c 2 2)) with (zt 2) in H2.
    destruct (b (c11_c 1 1)), (b (c11_c 2 2)), (b (c11_c 3 1)); try reflexivity; exfalso.
    + assert (zt 1 = t) by (apply H1; auto). assert (zt 2 = t) by (apply H2; auto). unfold zt in *. congruence.
    + assert (zt 2 = t) by (apply H2; auto). assert (zt 1 = t) by (apply H3; auto). unfold zt in *. congruence.
  - apply (f_equal zest) in C. vm_compute in C. discriminate C.
Qed.

(** What happens instead: a late input is applied before every retained input whose timestamp is
    at or after its own, and those are re-applied after it in their previous order; an on-time
    input is applied after everything. *)
Theorem C28_late_ties_partial {TT} {E : Env TT} (L : Lib E) {fin} (s s' : St E) (i : FInput E) :
  lib_strict L = false -> ExactTime TT fin -> p_rewind (par s) = true ->
  TimeSorted (fin := fin) (hist s ++ [c_cur (core s)]) -> fin (i_ts i) ->
  (i_ctl i = true -> i_cov i = s_Rc (c_sys (core s)) /\ i_model i = None) ->
  step L s (call_of i) = Ok s' ->
  (tle (getStateTime s) (i_ts i) = true -> input_core (core s) i = Ok (core s')) /\
  (tlt (i_ts i) (getStateTime s) = true -> (exists f, nth_error (hist s) 0 = Some f /\ tlt (f_ts f) (i_ts i) = true) ->
     exists before f after, hist s = before ++ f :: after
       /\ tlt (f_ts f) (i_ts i) = true /\ Forall (fun g => tle (i_ts i) (f_ts g) = true) after
       /\ ofold input_core (i :: map f_prev (after ++ [c_cur (core s)])) (set_cur (core s) f) = Ok (core s')).
Proof.
  intros Hlib Hx Hr Hs Fi Hc Hst.
  assert (Fn : fin (getStateTime s)).
  { destruct Hs as (Hs & _). apply Forall_app in Hs as (_ & Hs). inversion Hs; auto. }
  assert (Ha : apply_late L s i = Ok s').
  { unfold call_of in Hst. destruct (i_ctl i) eqn:Ec; cbn [step] in Hst.
    - unfold predict_u in Hst. rewrite Hr in Hst. simpl in Hst. destruct (Hc eq_refl) as (H1 & H2).
      rewrite <- H1, <- H2, <- Ec in Hst. destruct i; exact Hst.
    - unfold correct in Hst. rewrite Hr in Hst. simpl in Hst. rewrite <- Ec in Hst. destruct i; exact Hst. }
  split.
  - intros Hle. apply late_on_time in Ha; [tauto|]. apply (tlt_false_iff Hx); auto.
  - intros Hlt Hf. destruct (rewind_sorted L Hlib Hx s (i_ts i)) as (h1 & back & post & A & B & C & D); auto.
    exists h1, back, post. repeat split; auto. unfold apply_late in Ha. rewrite Hlt, D in Ha. cbn [obind negb] in Ha.
    apply applyBatchInputs_core in Ha as (Ha & _). exact Ha.
Qed.
