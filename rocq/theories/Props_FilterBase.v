(** The property theorems about FilterBase (C01 - C07, C09 - C28, C30).  IEEE-specific ones are
    in Props_FloatTime.v.

    Conventions.  [TT] is the arithmetic of timestamps; [CmpOk] asks only for comparison laws
    that doubles satisfy (NaN and infinities included); [ExactTime TT fin] is exact arithmetic on
    the timestamps satisfying [fin].  [E] is the algorithm and the user's models, completely
    arbitrary unless a hypothesis says otherwise.  [L] is the C++ library: [lib_strict L = false]
    is libstdc++; [SortOk L] says that std::sort returns some sorted permutation.  An outcome
    [Ok s] is a normal return.  [est s] is what getState(), getCovariance(), getStateTime()
    return. *)
From Coq Require Import ZArith List Bool Arith Lia Sorted Permutation.
From Verif Require Import Outcome FB_Model FB_Time FB_Trace FB_Loops FB_Basic FB_Order FB_Replay
  FB_Spec FB_LogRun FB_Inv FB_Single FB_Queue FB_Fresh.
Import ListNotations.

(** ** Facts about the witnesses *)
Lemma ins_ts_perm {TT} {E : Env TT} (i : FInput E) l : Permutation (ins_ts i l) (i :: l).
Proof.
  induction l as [|j l IH]; simpl; auto. destruct (tlt (i_ts i) (i_ts j)); auto.
  eapply Permutation_trans; [apply perm_skip; exact IH|apply perm_swap].
Qed.
Lemma isort_perm {TT} {E : Env TT} (l : list (FInput E)) : Permutation (isort_ts l) l.
Proof.
  unfold isort_ts. assert (H : forall a, Permutation (fold_left (fun a i => ins_ts i a) l a) (a ++ l)).
  { induction l as [|i l IH]; intros a; simpl; [rewrite app_nil_r; auto|].
    eapply Permutation_trans; [apply IH|]. eapply Permutation_trans; [apply Permutation_app_tail, ins_ts_perm|].
    simpl. apply Permutation_middle. }
  apply (H []).
Qed.
(** With integer time any list sorts *)
Lemma gnu_sort_ok (E : Env ZTime) : SortOk (gnu_lib E).
Proof.
  intros l _. simpl. split; [apply isort_perm|].
  unfold isort_ts. assert (H : forall a : list (FInput E), StronglySorted (fun a b => tlt (i_ts b) (i_ts a) = false) a ->
    StronglySorted (fun a b => tlt (i_ts b) (i_ts a) = false) (fold_left (fun a i => ins_ts i a) l a)).
  { induction l as [|i l IH]; intros a Ha; simpl; auto. apply IH.
    assert (Htr : forall x y z : ZTime, tlt y x = false -> tlt z y = false -> tlt z x = false).
    { intros [x|] [y|] [z|]; simpl; try discriminate; auto; rewrite ?Z.ltb_ge; lia. }
    assert (Has : forall x y : ZTime, tlt x y = true -> tlt y x = false).
    { intros [x|] [y|]; simpl; try discriminate; auto; rewrite ?Z.ltb_ge, ?Z.ltb_lt; lia. }
    induction Ha as [|j a Hs IHs Hj]; [repeat constructor|]. cbn [ins_ts].
    destruct (tlt (i_ts i) (i_ts j)) eqn:Ei.
    - constructor; [constructor; auto|]. constructor; auto. eapply Forall_impl; [|exact Hj].
      intros b Hb. eapply Htr; [|exact Hb]. auto.
    - constructor; auto. eapply Forall_perm; [apply Permutation_sym, ins_ts_perm|]. constructor; auto. }
  apply H. constructor.
Qed.
Lemma gnu_sort_in {TT} (E : Env TT) l i : In i (lib_sort (gnu_lib E) l) -> In i l.
Proof. simpl. apply Permutation_in, isort_perm. Qed.

Notation GL := (gnu_lib ZE).

Arguments zt z%Z_scope.
Definition P_off : Params ZTime := mkParams false (zt 1) false.
Definition P_on : Params ZTime := mkParams true (zt 100) false.

(** running a concrete scenario *)
Definition got {A} (o : outcome A) (d : A) : A := match o with Ok a => a | Ub _ => d end.
Lemma got_ok {A} (o : outcome A) d : is_ok o = true -> o = Ok (got o d).
Proof. destruct o; [reflexivity|discriminate]. Qed.
Lemma ok_ex {A} (o : outcome A) (P : A -> Prop) :
  match o with Ok a => P a | Ub _ => False end -> exists a, o = Ok a /\ P a.
Proof. destruct o; [eauto|contradiction]. Qed.
Definition zrun (p : Params ZTime) (ops : list (Op (E := ZE))) : St ZE := got (run GL ops (znew p)) (znew p).
Definition znew0 : St ZE := new_filter (E := ZE) zsys [0%Z] [] 0%Z (zt 0).
Definition zrun0 (ops : list (Op (E := ZE))) : St ZE := got (run GL ops znew0) znew0.
Ltac okall := try (vm_compute; reflexivity).
Ltac okrun := apply got_ok; vm_compute; reflexivity.
Ltac okex := apply ok_ex; vm_compute; repeat split; try reflexivity; try discriminate.

(** a trace as plain numbers *)
Definition zdt (t : ZTime) : option Z := match t with ZFin z => Some z | ZInf => None end.
Definition digest (l : list (tok ZTime)) : list (Z * list Z * Z * option Z) :=
  map (fun k => match k with
                | TNum z => (0%Z, [z], 0%Z, None)
                | TPred u R dt => (1%Z, u, R, zdt dt)
                | TCorr z Q dt => (2%Z, z, Q, zdt dt)
                | TStat => (3%Z, [], 0%Z, None)
                end) l.
Definition zest (e : V ZE * Mx ZE * ZTime) := (digest (fst (fst e)), snd (fst e) : Z, zdt (snd e)).

Lemma trace_memoryless (m : nat) R pr (ms : list Z) :
  Memoryless ZE (mkTSys m R pr) ms (fun s => s = mkTSys m R pr) (fun _ _ => True).
Proof.
  constructor; auto; intros; subst; auto.
  - simpl. unfold same_result, control_update; simpl. destruct (match pr with Some _ => true | None => false end); simpl.
    + destruct (match pr with Some p => p x d | None => Ok false end) as [[|]|]; simpl; auto.
    + auto.
  - simpl. auto.
Qed.

(** ** C01 *)
Theorem C01_initialize_exact {TT} {E : Env TT} (L : Lib E) (s : St E) x P t ts :
  CmpOk TT -> lib_sort L [] = [] ->
  est (initialize s x P t) = (x, P, t) /\
  processQueues L (initialize s x P t) = Ok (initialize s x P t) /\
  (tle ts t = true -> revertToState L (initialize s x P t) ts = Ok (initialize s x P t, false)).
Proof.
  intros Hc Hs. split; [reflexivity|]. split; [apply initialize_queues_noop; auto|].
  apply initialize_revert; auto.
Qed.

Theorem C01_construction_exact {TT} {E : Env TT} (sy : Sys E) ms x P t :
  est (new_filter sy ms x P t) = (x, P, t) /\ hist (new_filter sy ms x P t) = [] /\
  par (new_filter sy ms x P t) = mkParams false tone false.
Proof. repeat split. Qed.

Example C01_nonvacuous :
  CmpOk ZTime /\ lib_sort GL [] = [] /\
  exists s : St ZE, run GL [OpParams P_on; OpPredictU (zd [5%Z]) (zt 1); OpEnqC (zd [6%Z]) (zt 9)] (znew P_off) = Ok s
    /\ (length (hist s) = 1 /\ length (cq s) = 1 /\ tle (zt 3) (zt 4) = true).
Proof. split; [apply ZTime_cmp|]. split; [reflexivity|]. okex. Qed.

(** ** C02: re-initialising *)
(** the claim: from then on it behaves like a new filter with the same models and parameters *)
Definition C02_claim : Prop :=
  forall (TT : TimeOps) (E : Env TT) (L : Lib E) sy ms x0 P0 t0 ops0 (s : St E) x P t ops s1 s2,
  run L ops0 (new_filter sy ms x0 P0 t0) = Ok s ->
  run L ops (initialize s x P t) = Ok s1 ->
  run L (OpParams (par s) :: ops) (new_filter (c_sys (core s)) (c_meas (core s)) x P t) = Ok s2 ->
  est s1 = est s2.

(** predict([5], 1); initialize([], 0, 0); predict(1): the old control is used *)
Theorem C02_refuted : ~ C02_claim.
Proof.
  intros H.
  unshelve epose proof (H ZTime ZE GL zsys [0%Z] (zd []) 0%Z (zt 0) [OpPredictU (zd [5%Z]) (zt 1)] _
    (zd []) 0%Z (zt 0) [OpPredictT (zt 1)] _ _ (got_ok _ znew0 _) (got_ok _ znew0 _) (got_ok _ znew0 _)) as C; [okall..|].
  apply (f_equal zest) in C. vm_compute in C. discriminate C.
Qed.

(** It holds for every filter that has never been given a non-empty control, for all later
    calls. *)
Theorem C02_fresh_without_controls_partial {TT} {E : Env TT} (L : Lib E) sy ms x0 P0 t0 ops0 s x P t ops s1 :
  CmpOk TT -> (forall l i, In i (lib_sort L l) -> In i l) -> vsize (vempty : V E) = 0 ->
  Forall no_control ops0 ->
  run L ops0 (new_filter sy ms x0 P0 t0) = Ok s ->
  run L ops (initialize s x P t) = Ok s1 ->
  exists s2, run L (OpParams (par s) :: ops) (new_filter (c_sys (core s)) (c_meas (core s)) x P t) = Ok s2
    /\ est s1 = est s2.
Proof.
  intros Hc Hs Hv Hn H0 H1.
  assert (HA : c_pc (core s) = vempty).
  { edestruct (no_control_inv L Hs Hv ops0 (new_filter sy ms x0 P0 t0) s) as ((A & _) & _); auto.
    repeat split; simpl; auto; intros _; auto. }
  pose proof (run_same L Hc ops _ _ (reinit_same s x P t HA Hv)) as Ho. rewrite H1 in Ho.
  unfold run at 1. cbn [ofold step obind].
  change (mkSt (par s) (core (new_filter (c_sys (core s)) (c_meas (core s)) x P t))
            (hist (new_filter (c_sys (core s)) (c_meas (core s)) x P t))
            (cq (new_filter (c_sys (core s)) (c_meas (core s)) x P t))
            (mq (new_filter (c_sys (core s)) (c_meas (core s)) x P t)))
    with (mkSt (par s) (core (new_filter (c_sys (core s)) (c_meas (core s)) x P t)) [] [] []).
  fold (run L ops (mkSt (par s) (core (new_filter (c_sys (core s)) (c_meas (core s)) x P t)) [] [] [])).
  destruct (run L ops (mkSt (par s) _ [] [] [])) as [s2|]; simpl in Ho; [|contradiction].
  exists s2. split; auto. apply Same_est; auto.
Qed.

Example C02_nonvacuous : exists s : St ZE,
  run GL [OpParams P_on; OpCorrect (zd [4%Z]) 2%Z (zt 3) (Some 0)] (new_filter (E := ZE) zsys [0%Z] [] 0%Z (zt 0)) = Ok s
  /\ is_ok (run GL [OpPredictU (zd [5%Z]) (zt 2); OpCorrect (zd [4%Z]) 2%Z (zt 1) (Some 0)] (initialize s [] 0%Z (zt 0))) = true.
Proof. okex. Qed.
Example C02_nonvacuous' : Forall (no_control (E := ZE)) [OpParams P_on; OpCorrect (zd [4%Z]) 2%Z (zt 3) (Some 0)].
Proof. repeat constructor. Qed.

(** ** C03 - C04: ignored calls *)
Theorem C03_predict_not_in_future_ignored {TT} {E : Env TT} (L : Lib E) (s : St E) t :
  CmpOk TT -> tle t (getStateTime s) = true -> step L s (OpPredictT t) = Ok s.
Proof. intros. apply predict_t_ignored; auto. Qed.

Example C03_nonvacuous : tle (zt (-1)) (getStateTime (znew P_on)) = true /\ tle (zt 0) (getStateTime (znew P_on)) = true.
Proof. split; reflexivity. Qed.

Theorem C04_past_ignored_without_rewind {TT} {E : Env TT} (L : Lib E) {fin} (s : St E) t :
  CmpOk TT -> p_rewind (par s) = false -> tlt t (getStateTime s) = true ->
  (forall u, step L s (OpPredictU u t) = Ok s) /\
  (forall z Q m, ExactTime TT fin -> fin t -> fin (getStateTime s) -> p_past (par s) = false ->
     step L s (OpCorrect z Q t m) = Ok s).
Proof.
  intros Hc Hr Hlt. split; intros.
  - apply predict_u_past_ignored; auto.
  - eapply correct_past_ignored; eauto.
Qed.
(** ... and with allow_measurements_in_past it is applied (the exception in the claim is real) *)
Example C04_nonvacuous :
  p_rewind (par (znew P_off)) = false /\ tlt (zt (-3)) (getStateTime (znew P_off)) = true /\
  exists s : St ZE, step GL (znew (mkParams false (zt 1) true)) (OpCorrect (zd [4%Z]) 2%Z (zt (-3)) (Some 0)) = Ok s
    /\ getState s = [TCorr [4%Z] 2%Z (zt (-3))].
Proof. split; [reflexivity|]. split; [reflexivity|]. okex. Qed.

(** ** C05: time is monotone; C07: exact timestamps *)
Theorem C05_time_monotone {TT} {E : Env TT} (L : Lib E) {fin} sy ms x P t0 p ops s :
  lib_strict L = false -> ExactTime TT fin -> fin t0 ->
  Forall (direct_op (fin := fin)) ops ->
  forall ops1 ops2, ops = ops1 ++ ops2 ->
  run L (OpParams p :: ops) (new_filter sy ms x P t0) = Ok s ->
  exists s1, run L (OpParams p :: ops1) (new_filter sy ms x P t0) = Ok s1
    /\ run L ops2 s1 = Ok s
    /\ tle (getStateTime (E := E) s1) (getStateTime s) = true.
Proof.
  intros Hl Hx Ht Ho ops1 ops2 -> Hr. unfold run in *. cbn [ofold step obind] in *.
  rewrite ofold_app in Hr. apply obind_ok in Hr as (s1 & H1 & H2). exists s1. split; auto. split; auto.
  apply Forall_app in Ho as (O1 & O2).
  assert (HI : TimeInv (fin := fin) (mkSt p (core (new_filter (E := E) sy ms x P t0)) [] [] [])).
  { apply (TimeInv_init (fin := fin) (mkSt p (mkCore default_fstate vempty mempty sy ms) [] [] []) x P t0 Ht). }
  apply (direct_run L Hl Hx) in H1 as (I1 & _); auto.
  apply (direct_run L Hl Hx) in H2 as (_ & _ & H3); auto.
Qed.

Example C05_nonvacuous :
  Forall (direct_op (E := ZE) (fin := zfin))
    [OpPredictU (zd [5%Z]) (zt 4); OpCorrect (zd [1%Z]) 1%Z (zt 2) (Some 0); OpPredictT (zt 3); OpPredictU (zd [7%Z]) (zt 1)] /\
  exists s, run GL [OpParams P_on; OpPredictU (zd [5%Z]) (zt 4); OpCorrect (zd [1%Z]) 1%Z (zt 2) (Some 0);
                    OpPredictT (zt 3); OpPredictU (zd [7%Z]) (zt 1)] (new_filter (E := ZE) zsys [0%Z] [] 0%Z (zt 0)) = Ok s
    /\ getStateTime s = zt 4 /\ length (getState s) = 4.
Proof.
  split; [repeat constructor; unfold zfin, zt; eauto|]. okex.
Qed.

(** C06: false, with rewinding off and with rewinding on *)
Definition C06_claim (rewind : bool) : Prop :=
  forall (TT : TimeOps) (E : Env TT) (L : Lib E) fin sy ms x P t0 w ops (s s' : St E),
  lib_strict L = false -> SortOk L -> ExactTime TT fin -> fin t0 -> fin w -> Forall fin (timestamps ops) ->
  (forall o, In o ops -> ~ (exists x P t, o = OpInit x P t) /\ ~ (exists t, o = OpRevert t) /\ ~ (exists p, o = OpParams p)) ->
  run L (OpParams (mkParams rewind w false) :: ops) (new_filter sy ms x P t0) = Ok s ->
  step L s OpProcess = Ok s' -> tle (getStateTime s) (getStateTime s') = true.

Ltac no_special := intros o Ho; simpl in Ho;
  repeat match type of Ho with _ \/ _ => destruct Ho as [<-|Ho] end; try contradiction;
  repeat split; intros Hx; repeat destruct Hx as (? & Hx); discriminate.
Ltac zfins := repeat constructor; unfold zfin, zt; eauto.

(** rewinding off: predict at 10, queue a control for 5, process: the time becomes 5.
    rewinding on: a new filter at 0, queue a control for -5. *)
Theorem C06_refuted : ~ C06_claim false /\ ~ C06_claim true.
Proof.
  split; intros H.
  - unshelve epose proof (H ZTime ZE GL zfin zsys [0%Z] (zd []) 0%Z (zt 0) (zt 1) [OpPredictU (zd [5%Z]) (zt 10); OpEnqC (zd [6%Z]) (zt 5)]
      _ _ eq_refl (gnu_sort_ok ZE) ZTime_exact ltac:(zfins) ltac:(zfins) ltac:(zfins) ltac:(no_special)
      (got_ok _ znew0 _) (got_ok _ znew0 _)) as C; [okall..|].
    vm_compute in C. discriminate C.
  - unshelve epose proof (H ZTime ZE GL zfin zsys [0%Z] (zd []) 0%Z (zt 0) (zt 100) [OpEnqC (zd [6%Z]) (zt (-5))]
      _ _ eq_refl (gnu_sort_ok ZE) ZTime_exact ltac:(zfins) ltac:(zfins) ltac:(zfins) ltac:(no_special)
      (got_ok _ znew0 _) (got_ok _ znew0 _)) as C; [okall..|].
    vm_compute in C. discriminate C.
Qed.
