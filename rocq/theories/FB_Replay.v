(** Out-of-order inputs: the filter with rewinding on is a replay of the time-sorted log of
    the inputs it has accepted. *)
From Coq Require Import List Bool Arith Lia Sorted Permutation.
From Verif Require Import Outcome FB_Model FB_Time FB_Loops FB_Basic FB_Order.
Import ListNotations.

(** ** Model objects without memory

    [SL]/[ML k] describe the states of the system model object and of the k-th measurement model
    object that are equivalent to the initial ones [sy0]/[ms0] for the purposes of the filter
    (same configuration, arbitrary caches such as A_, x_pred_, H_).  Using the objects keeps
    them equivalent, and equivalent objects give the same estimates. *)
Definition same_result {A B C} (RA : A -> Prop) (x : outcome (A * B * C)) (y : outcome (A * B * C)) : Prop :=
  match x, y with
  | Ok (a, b, c), Ok (_, b', c') => RA a /\ b = b' /\ c = c'
  | Ub u, Ub u' => u = u'
  | _, _ => False
  end.

Record Memoryless {TT : TimeOps} (E : Env TT) (sy0 : Sys E) (ms0 : list (Meas E))
    (SL : Sys E -> Prop) (ML : nat -> Meas E -> Prop) : Prop := {
  ml_sys0 : SL sy0;
  ml_ms0 : forall k m, nth_error ms0 k = Some m -> ML k m;
  ml_csize : forall sy, SL sy -> s_csize sy = s_csize sy0;
  ml_Rc : forall sy, SL sy -> s_Rc sy = s_Rc sy0;
  ml_ctl : forall sy x P d u dt, SL sy ->
    same_result SL (control_update sy x P d u (s_Rc sy0) dt)
                   (control_update sy0 x P d u (s_Rc sy0) dt);
  ml_meas : forall sy k m m0 x P z Q dt, SL sy -> ML k m -> nth_error ms0 k = Some m0 ->
    same_result (fun p => SL (fst p) /\ ML k (snd p))
      (meas_update sy m x P z Q dt) (meas_update sy0 m0 x P z Q dt)
}.

Lemma nth_error_list_set {A} (l : list A) i j a :
  nth_error (list_set l i a) j =
  if Nat.eqb i j then match nth_error l j with Some _ => Some a | None => None end else nth_error l j.
Proof.
  revert i j; induction l as [|b l IH]; intros i j; simpl.
  - destruct i, j; simpl; auto; destruct (Nat.eqb _ _); auto.
  - destruct i as [|i], j as [|j]; simpl; auto.
Qed.

Section Replay.
Context {TT : TimeOps} {E : Env TT} (L : Lib E) (Hlib : lib_strict L = false).
Context {fin : TT -> Prop} (Hx : ExactTime TT fin).
Context (sy0 : Sys E) (ms0 : list (Meas E)) (SL : Sys E -> Prop) (ML : nat -> Meas E -> Prop).
Context (HM : Memoryless E sy0 ms0 SL ML).
Notation R0 := (s_Rc sy0).

Definition meas_like (ms : list (Meas E)) : Prop :=
  forall k, match nth_error ms k, nth_error ms0 k with
            | Some m, Some _ => ML k m
            | None, None => True
            | _, _ => False
            end.

(** objects equivalent to the reference ones *)
Definition obj_ok (c : Core E) : Prop := SL (c_sys c) /\ meas_like (c_meas c).
(** same estimate, equivalent objects *)
Definition sim0 (c k : Core E) : Prop := est_c c = est_c k /\ obj_ok c /\ obj_ok k.
(** ... and the same remembered control *)
Definition pc_ok (c : Core E) : Prop := vsize (c_pc c) = 0 \/ c_pcc c = R0.
Definition sim (c k : Core E) : Prop :=
  sim0 c k /\ c_pc c = c_pc k /\ c_pcc c = c_pcc k /\ pc_ok c.

(** inputs as the filter makes them: controls carry the covariance of the system model *)
Definition inp_ok (i : FInput E) : Prop := i_ctl i = true -> i_cov i = R0 /\ i_model i = None.
Definition real_control (i : FInput E) : Prop := i_ctl i = true /\ 0 < vsize (i_data i).

Definition orel {A B} (R : A -> B -> Prop) (x : outcome A) (y : outcome B) : Prop :=
  match x, y with Ok a, Ok b => R a b | Ub u, Ub u' => u = u' | _, _ => False end.

Lemma orel_ok {A B} (R : A -> B -> Prop) x y a : orel R x y -> x = Ok a -> exists b, y = Ok b /\ R a b.
Proof. intros Ho ->. destruct y as [b|]; simpl in Ho; [eauto|contradiction]. Qed.

Lemma orel_ok_r {A B} (R : A -> B -> Prop) x y b : orel R x y -> y = Ok b -> exists a, x = Ok a /\ R a b.
Proof. intros Ho ->. destruct x as [a|]; simpl in Ho; [eauto|contradiction]. Qed.

Lemma meas_like_set ms k m : meas_like ms -> ML k m -> meas_like (list_set ms k m).
Proof.
  intros Hl Hm j. specialize (Hl j). rewrite nth_error_list_set.
  destruct (Nat.eqb_spec k j) as [->|]; [|exact Hl].
  destruct (nth_error ms j), (nth_error ms0 j); auto.
Qed.

Lemma ctl_update_rel a b x P d u dt : SL a -> SL b ->
  orel (fun r1 r2 => SL (fst (fst r1)) /\ SL (fst (fst r2)) /\ snd (fst r1) = snd (fst r2) /\ snd r1 = snd r2)
    (control_update a x P d u R0 dt) (control_update b x P d u R0 dt).
Proof.
  intros Ha Hb. pose proof (ml_ctl _ _ _ _ _ HM a x P d u dt Ha) as H1.
  pose proof (ml_ctl _ _ _ _ _ HM b x P d u dt Hb) as H2. unfold same_result in *.
  destruct (control_update a x P d u R0 dt) as [[[a1 x1] P1]|],
           (control_update b x P d u R0 dt) as [[[b1 x2] P2]|],
           (control_update sy0 x P d u R0 dt) as [[[s1 x3] P3]|]; simpl; try contradiction; try congruence.
  destruct H1 as (? & ? & ?), H2 as (? & ? & ?). repeat split; congruence.
Qed.

(** the control step, with equal or overwritten remembered control *)
Lemma applyControl_sim c k inp :
  sim0 c k -> (vsize (i_data inp) = 0 \/ i_cov inp = R0) ->
  (0 < vsize (i_data inp) \/ (c_pc c = c_pc k /\ c_pcc c = c_pcc k /\ pc_ok c)) ->
  orel (fun c' k' => sim c' k' /\ time_of c' = time_of c) (applyControlInput c inp) (applyControlInput k inp).
Proof.
  intros (He & (Sc & Mc) & (Sk & Mk)) Hcov Hpc. unfold est_c in He. injection He as Ex EP Et.
  unfold applyControlInput, choose_control. rewrite Et.
  destruct (Nat.ltb_spec 0 (vsize (i_data inp))) as [Hd|Hd].
  - assert (Hr : i_cov inp = R0) by (destruct Hcov; [lia|auto]). rewrite Hr. simpl.
    pose proof (ctl_update_rel (c_sys c) (c_sys k) (f_x (c_cur c)) (f_cov (c_cur c)) (i_data inp)
      (i_data inp) (tsub (i_ts inp) (f_ts (c_cur k))) Sc Sk) as Hu.
    rewrite <- Ex, <- EP.
    destruct (control_update (c_sys c) _ _ _ _ _ _) as [[[a1 x1] P1]|],
             (control_update (c_sys k) _ _ _ _ _ _) as [[[b1 x2] P2]|]; simpl in *; try contradiction; auto.
    destruct Hu as (S1 & S2 & -> & ->). unfold sim, sim0, obj_ok, est_c, pc_ok, time_of; simpl.
    rewrite Et. repeat split; auto.
  - destruct Hpc as [Hpc|(Epc & Epcc & Hpk)]; [lia|].
    rewrite <- Epc.
    destruct (Nat.ltb_spec 0 (vsize (c_pc c))) as [Hp|Hp].
    + rewrite <- Epcc. assert (Hr : c_pcc c = R0) by (destruct Hpk; [lia|auto]). rewrite Hr.
      pose proof (ctl_update_rel (c_sys c) (c_sys k) (f_x (c_cur c)) (f_cov (c_cur c)) (i_data inp)
        (c_pc c) (tsub (i_ts inp) (f_ts (c_cur k))) Sc Sk) as Hu.
      rewrite <- Ex, <- EP.
      destruct (control_update (c_sys c) _ _ _ _ _ _) as [[[a1 x1] P1]|],
               (control_update (c_sys k) _ _ _ _ _ _) as [[[b1 x2] P2]|]; simpl in *; try contradiction; auto.
      destruct Hu as (S1 & S2 & -> & ->). unfold sim, sim0, obj_ok, est_c, pc_ok, time_of; simpl.
      rewrite Et. repeat split; auto.
    + rewrite (ml_Rc _ _ _ _ _ HM _ Sc), (ml_Rc _ _ _ _ _ HM _ Sk),
        (ml_csize _ _ _ _ _ HM _ Sc), (ml_csize _ _ _ _ _ HM _ Sk).
      pose proof (ctl_update_rel (c_sys c) (c_sys k) (f_x (c_cur c)) (f_cov (c_cur c)) (i_data inp)
        (vzero (s_csize sy0)) (tsub (i_ts inp) (f_ts (c_cur k))) Sc Sk) as Hu.
      rewrite <- Ex, <- EP.
      destruct (control_update (c_sys c) _ _ _ _ _ _) as [[[a1 x1] P1]|],
               (control_update (c_sys k) _ _ _ _ _ _) as [[[b1 x2] P2]|]; simpl in *; try contradiction; auto.
      destruct Hu as (S1 & S2 & -> & ->). unfold sim, sim0, obj_ok, est_c, pc_ok, time_of; simpl.
      rewrite Et. repeat split; auto.
Qed.

Lemma sim_set_ts c k t : sim c k -> sim (set_ts c t) (set_ts k t).
Proof.
  unfold sim, sim0, est_c, obj_ok, pc_ok; simpl. intros ((He & H1 & H2) & H3).
  injection He as Ex EP Et. rewrite Ex, EP. tauto.
Qed.

Lemma sim_set_prev c k i j : sim c k -> sim (set_prev c i) (set_prev k j).
Proof. unfold sim, sim0, est_c, obj_ok, pc_ok; simpl. tauto. Qed.

Lemma advance_sim c k inp dt : sim c k ->
  orel sim (advance_if_needed c inp dt) (advance_if_needed k inp dt).
Proof.
  intros Hs. unfold advance_if_needed. destruct (tlt tzero dt); [|exact Hs].
  destruct Hs as (Hs0 & Epc & Epcc & Hpc). rewrite <- Epc, <- Epcc.
  pose proof (applyControl_sim c k (mkInput (c_pc c) (c_pcc c) (i_ts inp) true None) Hs0 Hpc
    (or_intror (conj Epc (conj Epcc Hpc)))) as Ha.
  destruct (applyControlInput c _) as [c1|], (applyControlInput k _) as [k1|]; simpl in *; auto; try contradiction.
  destruct Ha as (Hs & _). assert (Et : f_ts (c_cur c1) = f_ts (c_cur k1)).
  { destruct Hs as ((He & _) & _). unfold est_c in He. congruence. }
  rewrite Et. apply sim_set_ts; auto.
Qed.

Lemma meas_update_rel a b k m m' x P z Q dt :
  SL a -> SL b -> ML k m -> ML k m' -> (exists m0, nth_error ms0 k = Some m0) ->
  orel (fun r1 r2 => SL (fst (fst (fst r1))) /\ ML k (snd (fst (fst r1))) /\
                     SL (fst (fst (fst r2))) /\ ML k (snd (fst (fst r2))) /\
                     snd (fst r1) = snd (fst r2) /\ snd r1 = snd r2)
    (meas_update a m x P z Q dt) (meas_update b m' x P z Q dt).
Proof.
  intros Ha Hb Hm Hm' (m0 & Hm0).
  pose proof (ml_meas _ _ _ _ _ HM a k m m0 x P z Q dt Ha Hm Hm0) as H1.
  pose proof (ml_meas _ _ _ _ _ HM b k m' m0 x P z Q dt Hb Hm' Hm0) as H2. unfold same_result in *.
  destruct (meas_update a m x P z Q dt) as [[[p1 x1] P1]|],
           (meas_update b m' x P z Q dt) as [[[p2 x2] P2]|],
           (meas_update sy0 m0 x P z Q dt) as [[[p3 x3] P3]|]; simpl; try contradiction; try congruence.
  destruct H1 as ((? & ?) & ? & ?), H2 as ((? & ?) & ? & ?). repeat split; auto; congruence.
Qed.

Lemma input_core_sim c k inp : sim0 c k -> inp_ok inp ->
  (real_control inp \/ sim c k) ->
  orel (fun c' k' => sim c' k' /\ f_prev (c_cur c') = inp) (input_core c inp) (input_core k inp).
Proof.
  intros Hs0 Hok Hor. unfold input_core.
  assert (Et : f_ts (c_cur c) = f_ts (c_cur k)).
  { destruct Hs0 as (He & _). unfold est_c in He. congruence. }
  rewrite Et. destruct (i_ctl inp) eqn:Ec.
  - pose proof (applyControl_sim c k inp Hs0 (or_intror (proj1 (Hok Ec)))) as Ha.
    assert (Hp : 0 < vsize (i_data inp) \/ (c_pc c = c_pc k /\ c_pcc c = c_pcc k /\ pc_ok c)).
    { destruct Hor as [(_ & Hd)|(_ & Hd)]; auto. }
    specialize (Ha Hp).
    destruct (applyControlInput c inp) as [c1|], (applyControlInput k inp) as [k1|]; simpl in *; auto; try contradiction.
    destruct Ha as (Hs & _). split; [|reflexivity]. apply sim_set_prev.
    assert (Et1 : f_ts (c_cur c1) = f_ts (c_cur k1)).
    { destruct Hs as ((He & _) & _). unfold est_c in He. congruence. }
    rewrite Et1. apply sim_set_ts; auto.
  - destruct Hor as [(Hc & _)|Hs]; [congruence|].
    unfold applyMeasurementInput. rewrite Et.
    pose proof (advance_sim c k inp (tsub (i_ts inp) (f_ts (c_cur k))) Hs) as Ha.
    destruct (advance_if_needed c inp _) as [c1|], (advance_if_needed k inp _) as [k1|]; simpl in *; auto; try contradiction.
    destruct (i_model inp) as [j|]; simpl; auto.
    destruct Ha as ((He & (Sc & Mc) & (Sk & Mk)) & Hpc).
    unfold est_c in He. injection He as Ex EP Et1.
    pose proof (Mc j) as Mcj. pose proof (Mk j) as Mkj.
    destruct (nth_error (c_meas c1) j) as [m|], (nth_error (c_meas k1) j) as [m'|],
      (nth_error ms0 j) as [m0|] eqn:E0; simpl; auto; try contradiction.
    rewrite <- Ex, <- EP.
    pose proof (meas_update_rel (c_sys c1) (c_sys k1) j m m' (f_x (c_cur c1)) (f_cov (c_cur c1))
      (i_data inp) (i_cov inp) (tsub (i_ts inp) (f_ts (c_cur k))) Sc Sk Mcj Mkj (ex_intro _ m0 E0)) as Hu.
    destruct (meas_update (c_sys c1) m _ _ _ _ _) as [[[[a1 n1] x1] P1]|],
             (meas_update (c_sys k1) m' _ _ _ _ _) as [[[[b1 n2] x2] P2]|]; simpl in *; auto; try contradiction.
    destruct Hu as (S1 & M1 & S2 & M2 & -> & ->).
    split; [|reflexivity]. apply sim_set_prev. destruct Hpc as (Hp1 & Hp2 & Hp3).
    unfold sim, sim0, obj_ok, est_c, pc_ok; simpl. rewrite Et1.
    repeat split; auto; apply meas_like_set; auto.
Qed.

(** ** The log and its scan *)
Definition est_f (f : FState E) : V E * Mx E * TT := (f_x f, f_cov f, f_ts f).

Inductive Scan : Core E -> list (FInput E) -> list (FState E) -> Core E -> Prop :=
| Scan_nil k : Scan k [] [] k
| Scan_cons k inp k1 f l fs kn :
    input_core k inp = Ok k1 -> est_f f = est_c k1 -> f_prev f = inp -> Scan k1 l fs kn ->
    Scan k (inp :: l) (f :: fs) kn.

Lemma Scan_length k l fs kn : Scan k l fs kn -> length fs = length l.
Proof. induction 1; simpl; auto. Qed.

Lemma Scan_ofold k l fs kn : Scan k l fs kn -> ofold input_core l k = Ok kn.
Proof. induction 1 as [|k inp k1 f l fs kn H1 H2 H3 H4 IH]; simpl; auto. rewrite H1. simpl. exact IH. Qed.

Lemma Scan_prevs k l fs kn : Scan k l fs kn -> map f_prev fs = l.
Proof. induction 1; simpl; congruence. Qed.

Lemma Scan_app k l1 l2 fs kn : Scan k (l1 ++ l2) fs kn <->
  exists f1 f2 km, fs = f1 ++ f2 /\ Scan k l1 f1 km /\ Scan km l2 f2 kn.
Proof.
  split.
  - revert k fs; induction l1 as [|i l1 IH]; intros k fs Hs; simpl in Hs.
    + exists [], fs, k. repeat split; auto. constructor.
    + inversion Hs as [|? ? k1 f ? fs' ? H1 H2 H3 H4]; subst.
      apply IH in H4 as (f1 & f2 & km & -> & S1 & S2).
      exists (f :: f1), f2, km. repeat split; auto. econstructor; eauto.
  - intros (f1 & f2 & km & -> & S1 & S2). induction S1; simpl; auto. econstructor; eauto.
Qed.

Lemma Scan_app_fs k l f1 f2 kn : Scan k l (f1 ++ f2) kn ->
  exists l1 l2 km, l = l1 ++ l2 /\ Scan k l1 f1 km /\ Scan km l2 f2 kn.
Proof.
  revert k l; induction f1 as [|f f1 IH]; intros k l Hs; simpl in Hs.
  - exists [], l, k. repeat split; auto. constructor.
  - inversion Hs as [|? i k1 ? l' ? ? H1 H2 H3 H4]; subst.
    apply IH in H4 as (l1 & l2 & km & -> & S1 & S2).
    exists (f_prev f :: l1), l2, km. repeat split; auto. econstructor; eauto.
Qed.

Lemma app_snoc_inv {A} (l1 l2 : list A) a b : l1 ++ [a] = l2 ++ [b] -> l1 = l2 /\ a = b.
Proof. apply app_inj_tail. Qed.

Lemma sim_refl c k : sim c k -> sim k k.
Proof.
  intros ((He & H1 & H2) & H3 & H4 & H5). unfold sim, sim0, pc_ok in *. rewrite <- H3, <- H4. repeat split; auto; try apply H2.
Qed.

Lemma sim_sim0 c k : sim c k -> sim0 c k.
Proof. intros (H & _); auto. Qed.

(** [states s] is the scan of [log] from the reference core [c0] *)
Context (c0 : Core E) (Hc0 : sim c0 c0).
Definition Rep (s : St E) (log : list (FInput E)) : Prop :=
  p_rewind (par s) = true /\
  exists f0 fs kn, states s = f0 :: fs /\ est_f f0 = est_c c0 /\ Scan c0 log fs kn /\ sim (core s) kn.

(** Applying a batch of inputs to a filter that represents a log.  The first input may be one
    whose remembered control is wrong if it is a control itself. *)
Lemma states_last (s : St E) f fs : states s = f :: fs -> c_cur (core s) = last (f :: fs) f.
Proof. unfold states. intros <-. rewrite last_last. reflexivity. Qed.

Lemma batch_scan l : forall s k s',
  p_rewind (par s) = true -> Forall inp_ok l ->
  sim0 (core s) k ->
  (match l with i :: _ => real_control i \/ sim (core s) k | [] => sim (core s) k end) ->
  ofold applyInput l s = Ok s' ->
  exists fs kn, states s' = states s ++ fs /\ Scan k l fs kn /\ sim (core s') kn /\ par s' = par s
    /\ cq s' = cq s /\ mq s' = mq s.
Proof.
  induction l as [|i l IH]; intros s k s' Hr Hok Hs0 Hs Ho; cbn [ofold] in Ho.
  - injection Ho as <-. exists [], k. rewrite app_nil_r. split; [auto|]. split; [constructor|]. auto.
  - apply obind_ok in Ho as (s1 & H1 & H2). inversion Hok as [|? ? Hoki Hokl]; subst.
    apply applyInput_ok in H1 as (c & Hc & ->). rewrite Hr in H2.
    pose proof (input_core_sim (core s) k i Hs0 Hoki Hs) as Hsim.
    apply (orel_ok _ _ _ _ Hsim) in Hc as (k1 & Hk1 & Hs1 & Hp).
    apply (IH _ k1 s') in H2; auto; [|apply sim_sim0; exact Hs1 | simpl; destruct l; auto].
    destruct H2 as (fs & kn & Hst & Hsc & Hsn & Hpar & Hq1 & Hq2).
    simpl in *. exists (c_cur c :: fs), kn. split; [|split; [|auto]].
    + rewrite Hst. unfold states. simpl. rewrite <- !app_assoc. reflexivity.
    + econstructor; eauto. destruct Hs1 as ((He & _) & _). exact He.
Qed.

(** a batch succeeds if the reference does *)
Lemma batch_ok l : forall s k kn,
  p_rewind (par s) = true -> Forall inp_ok l -> sim (core s) k ->
  ofold input_core l k = Ok kn -> exists s', ofold applyInput l s = Ok s'.
Proof.
  induction l as [|i l IH]; intros s k kn Hr Hok Hs Ho; cbn [ofold] in *; [eauto|].
  apply obind_ok in Ho as (k1 & H1 & H2). inversion Hok as [|? ? Hoki Hokl]; subst.
  pose proof (input_core_sim (core s) k i (sim_sim0 _ _ Hs) Hoki (or_intror Hs)) as Hsim.
  apply (orel_ok_r _ _ _ _ Hsim) in H1 as (c1 & Hc1 & Hs1 & _).
  unfold applyInput at 1. rewrite Hc1. cbn [obind].
  apply (IH _ k1 kn); auto.
Qed.

(** ** Time bookkeeping of a represented log *)
Notation ilt a b := (tlt (i_ts a) (i_ts b) = true) (only parsing).
Definition LogOk (t0 w : TT) (log : list (FInput E)) : Prop :=
  StronglySorted (fun a b : FInput E => tlt (i_ts a) (i_ts b) = true) log /\
  Forall (fun i => fin (i_ts i) /\ tlt t0 (i_ts i) = true /\ tle (tsub (i_ts i) w) t0 = true) log /\
  Forall inp_ok log.

Lemma StronglySorted_lt_le log : Forall (fun i => fin (i_ts i)) log ->
  StronglySorted (fun a b : FInput E => tlt (i_ts a) (i_ts b) = true) log ->
  StronglySorted (fun a b : FInput E => tle (i_ts a) (i_ts b) = true) log.
Proof.
  intros Hf Hs. induction Hs as [|a l Hs IH Ha]; constructor; inversion Hf; subst; auto.
  rewrite Forall_forall in *. intros b Hb. apply (tlt_le Hx); auto.
Qed.

(** the recorded states carry the timestamps of the log *)
Lemma Scan_times log : forall k fs kn, fin (time_of k) ->
  StronglySorted (fun a b : FInput E => tlt (i_ts a) (i_ts b) = true) log ->
  Forall (fun i => fin (i_ts i) /\ tlt (time_of k) (i_ts i) = true) log ->
  Scan k log fs kn -> map f_ts fs = map i_ts log /\ time_of kn = last (map i_ts log) (time_of k).
Proof.
  induction log as [|i log IH]; intros k fs kn Hk Hs Hf Hsc; inversion Hsc as [|? ? k1 f ? fs' ? H1 H2 H3 H4]; subst.
  - split; reflexivity.
  - inversion Hs as [|? ? Hs' Hi]; subst. inversion Hf as [|? ? (Fi & Li) Hf']; subst.
    apply input_core_time in H1 as (Ht & _).
    rewrite (time_after_ge Hx) in Ht; auto; [|apply (tlt_le Hx); auto].
    assert (Ef : f_ts f = time_of k1) by (unfold est_f, est_c in H2; unfold time_of; congruence).
    destruct (IH k1 fs' kn) as (A & B); auto.
    + rewrite Ht; auto.
    + rewrite Ht. rewrite Forall_forall in *. intros j Hj. split; [apply Hf'; auto|apply Hi; auto].
    + cbn [map]. rewrite A, B, last_cons_default. split; [|rewrite Ht; reflexivity].
      f_equal. congruence.
Qed.

Variable w : TT.
Notation t0 := (time_of c0).
Hypothesis Ht0 : fin t0.
Hypothesis Hwfin : fin w.

Lemma LogOk_times log : LogOk t0 w log ->
  Forall (fun i => fin (i_ts i) /\ tlt t0 (i_ts i) = true) log.
Proof. intros (_ & H & _). eapply Forall_impl; [|exact H]. simpl; tauto. Qed.

Lemma Rep_times s log : Rep s log -> LogOk t0 w log ->
  exists f0 fs, states s = f0 :: fs /\ f_ts f0 = t0 /\ map f_ts fs = map i_ts log
    /\ getStateTime s = last (map i_ts log) t0 /\ map f_prev fs = log /\ TimeSorted (fin := fin) (states s).
Proof.
  intros (Hr & f0 & fs & kn & Hst & He0 & Hsc & Hsim) Hl.
  pose proof Hl as (Hs & Hf & _).
  destruct (Scan_times log c0 fs kn) as (A & B); auto; [apply LogOk_times; auto|].
  exists f0, fs. assert (Ef0 : f_ts f0 = t0) by (unfold est_f, est_c in He0; unfold time_of; congruence).
  repeat split; auto.
  - rewrite <- B. destruct Hsim as ((He & _) & _). unfold est_c in He. unfold getStateTime, time_of. congruence.
  - apply Scan_prevs in Hsc. exact Hsc.
  - rewrite Hst. constructor; [rewrite Ef0; auto|].
    assert (Hm : forall f, In f fs -> In (f_ts f) (map i_ts log)) by (intros f Hin; rewrite <- A; apply in_map; auto).
    apply Forall_forall. intros f Hin. apply Hm, in_map_iff in Hin as (i & <- & Hi).
    rewrite Forall_forall in Hf. apply Hf; auto.
  - rewrite Hst. constructor.
    + assert (Hs' : StronglySorted (fun a b : TT => tle a b = true) (map f_ts fs)).
      { rewrite A. apply StronglySorted_lt_le in Hs.
        - clear -Hs. induction Hs as [|a l Hs IH Ha]; simpl; constructor; auto.
          apply Forall_map. exact Ha.
        - eapply Forall_impl; [|exact Hf]. simpl; tauto. }
      clear -Hs'. induction fs as [|f fs IH]; [constructor|]. simpl in Hs'. inversion Hs' as [|? ? S1 S2]; subst.
      constructor; auto. apply Forall_map in S2. exact S2.
    + apply Forall_forall. intros f Hin. rewrite Ef0.
      assert (Hm : In (f_ts f) (map i_ts log)) by (rewrite <- A; apply in_map; auto).
      apply in_map_iff in Hm as (i & <- & Hi). rewrite Forall_forall in Hf. apply (tlt_le Hx); auto; apply Hf; auto.
Qed.

(** nothing is pruned while all timestamps are inside the window *)
Lemma prune_noop s : p_rewind (par s) = true -> p_window (par s) = w ->
  fin (getStateTime s) -> tle (tsub (getStateTime s) w) t0 = true ->
  Forall (fun f => fin (f_ts f) /\ tle t0 (f_ts f) = true) (hist s) ->
  pruneHistory L s = Ok s.
Proof.
  intros Hr Hw Hf Hle Hh. rewrite pruneHistory_char, Hr, Hw; auto. f_equal.
  destruct s as [pa c h cq0 mq0]; simpl in *. f_equal.
  unfold drop_old_suffix. destruct (rev h) as [|f l] eqn:El.
  - rewrite <- (rev_involutive h), El. reflexivity.
  - assert (Hin : In f h) by (apply in_rev; rewrite El; left; reflexivity).
    rewrite Forall_forall in Hh. destruct (Hh f Hin) as (Ff & Lf).
    cbn [drop_while]. change (older_than (tsub (f_ts (c_cur c)) w) f) with (tlt (f_ts f) (tsub (f_ts (c_cur c)) w)).
    unfold getStateTime in *; simpl in *.
    replace (tlt (f_ts f) (tsub (f_ts (c_cur c)) w)) with false.
    + rewrite <- El, rev_involutive. reflexivity.
    + symmetry. apply (et_le_any _ _ Hx _ t0); auto.
Qed.

Lemma Rep_prune s log : Rep s log -> LogOk t0 w log -> p_window (par s) = w -> tle (tsub t0 w) t0 = true ->
  pruneHistory L s = Ok s.
Proof.
  intros HR Hl Hw Hw0. pose proof HR as (Hr & _).
  destruct (Rep_times s log HR Hl) as (f0 & fs & Hst & Hf0 & Hts & Hnow & _ & Hsort).
  pose proof Hl as (_ & Hf & _).
  assert (Hlast : getStateTime s = t0 \/ In (getStateTime s) (map i_ts log)).
  { rewrite Hnow. destruct log as [|i log'] using rev_ind; [left; reflexivity|right].
    rewrite map_app. simpl. rewrite last_last. apply in_or_app. right. left. reflexivity. }
  assert (Hgood : fin (getStateTime s) /\ tle (tsub (getStateTime s) w) t0 = true).
  { destruct Hlast as [->|Hin]; [auto|]. apply in_map_iff in Hin as (i & <- & Hi).
    rewrite Forall_forall in Hf. destruct (Hf i Hi) as (A & B & C). auto. }
  destruct Hgood as (G1 & G2). apply prune_noop; auto.
  rewrite Forall_forall. intros f Hin. unfold states in Hst.
  assert (Hin' : In f (f0 :: fs)) by (rewrite <- Hst; apply in_or_app; left; auto).
  rewrite <- Hst in Hin'. destruct Hsort as (Hfin & Hss). unfold states in *. rewrite Hst in *.
  rewrite Forall_forall in Hfin. split; [apply Hfin; auto|].
  destruct Hin' as [<-|Hin'].
  - rewrite Hf0. apply (et_refl _ _ Hx); auto.
  - inversion Hss as [|? ? S1 S2]; subst. rewrite Forall_forall in S2. rewrite <- Hf0. auto.
Qed.

(** ** Splitting a represented log at a timestamp *)
Lemma log_split log ts : fin ts -> LogOk t0 w log ->
  exists l1 l2, log = l1 ++ l2 /\ Forall (fun i => tlt (i_ts i) ts = true) l1
    /\ Forall (fun i => tle ts (i_ts i) = true) l2.
Proof.
  intros Hts (Hs & Hf & _). induction log as [|i log IH]; [exists [], []; auto|].
  inversion Hs as [|? ? S1 S2]; subst. inversion Hf as [|? ? (Fi & Li & Wi) Hf']; subst.
  destruct (tlt (i_ts i) ts) eqn:Ei.
  - destruct IH as (l1 & l2 & -> & A & B); auto. exists (i :: l1), l2. repeat split; auto.
  - exists [], (i :: log). repeat split; auto. apply (tlt_false_iff Hx) in Ei; auto.
    constructor; auto. rewrite Forall_forall in *. intros j Hj.
    apply (et_trans _ _ Hx _ (i_ts i)); auto; [apply Hf'; auto|].
    apply (tlt_le Hx); auto; apply Hf'; auto.
Qed.

(** Inputs that are not real controls do not change the remembered control *)
Lemma input_core_pc (c : Core E) inp c' : ~ real_control inp -> input_core c inp = Ok c' ->
  c_pc c' = c_pc c /\ c_pcc c' = c_pcc c.
Proof.
  intros Hn Hi. unfold input_core in Hi. apply obind_ok in Hi as (c1 & H1 & He). injection He as <-. simpl.
  assert (Hctl : forall (d : Core E) inp' c2, vsize (i_data inp') = 0 \/ (i_data inp' = c_pc d /\ i_cov inp' = c_pcc d) ->
     applyControlInput d inp' = Ok c2 -> c_pc c2 = c_pc d /\ c_pcc c2 = c_pcc d).
  { clear. intros d inp' c2 Hor Ha. unfold applyControlInput, choose_control in Ha.
    destruct (Nat.ltb_spec 0 (vsize (i_data inp'))) as [Hd|Hd].
    - destruct Hor as [Hor|(Ed & Er)]; [lia|].
      apply obind_ok in Ha as ([[sy x] P] & _ & He). injection He as <-. auto.
    - destruct (0 <? vsize (c_pc d)); apply obind_ok in Ha as ([[sy x] P] & _ & He); injection He as <-; auto. }
  destruct (i_ctl inp) eqn:Ec.
  - apply obind_ok in H1 as (c2 & H2 & He). injection He as <-. simpl.
    apply (Hctl c inp); auto. left.
    destruct (Nat.eq_dec (vsize (i_data inp)) 0); auto. exfalso. apply Hn. split; auto. lia.
  - unfold applyMeasurementInput in H1. apply obind_ok in H1 as (c2 & H2 & H3).
    assert (Hadv : c_pc c2 = c_pc c /\ c_pcc c2 = c_pcc c).
    { unfold advance_if_needed in H2. destruct (tlt tzero _).
      - apply obind_ok in H2 as (c3 & H4 & He). injection He as <-. simpl. eapply Hctl; [|exact H4]. right; auto.
      - injection H2 as <-. auto. }
    destruct (i_model inp) as [j|]; [|discriminate]. destruct (nth_error (c_meas c2) j) as [m0|]; [|discriminate].
    apply obind_ok in H3 as ([[[sy m1] x1] P1] & _ & He). injection He as <-. simpl. exact Hadv.
Qed.

Lemma Scan_pc k l fs kn : Scan k l fs kn -> Forall (fun i => ~ real_control i) l ->
  c_pc kn = c_pc k /\ c_pcc kn = c_pcc k.
Proof.
  induction 1 as [|k inp k1 f l fs kn H1 H2 H3 H4 IH]; intros Hf; auto.
  inversion Hf; subst. destruct IH as (A & B); auto. apply input_core_pc in H1 as (C & D); auto.
  split; congruence.
Qed.

Lemma Scan_sim k l fs kn : Scan k l fs kn -> Forall inp_ok l -> sim k k -> sim kn kn.
Proof.
  induction 1 as [|k inp k1 f l fs kn H1 H2 H3 H4 IH]; intros Hok Hsk; auto.
  inversion Hok; subst. apply IH; auto.
  pose proof (input_core_sim k k (f_prev f) (sim_sim0 _ _ Hsk) ltac:(auto) (or_intror Hsk)) as Hor.
  destruct (orel_ok _ _ _ _ Hor H1) as (k2 & Hk2 & Hs2 & _).
  rewrite H1 in Hk2. injection Hk2 as <-. exact Hs2.
Qed.

Lemma Scan_last k l fs kn (d : FState E) : Scan k l fs kn -> est_f d = est_c k -> est_f (last fs d) = est_c kn.
Proof.
  intros Hs; revert d; induction Hs as [|k inp k1 f l fs kn H1 H2 H3 H4 IH]; intros d Hd; [exact Hd|].
  rewrite last_cons_default. apply IH; auto.
Qed.

(** Rewinding a represented log *)
Lemma Rep_rewind s log ts : fin ts -> tlt t0 ts = true -> Rep s log -> LogOk t0 w log ->
  tle ts (getStateTime s) = true ->
  exists l1 l2 s1 post,
    log = l1 ++ l2
    /\ Forall (fun i => tlt (i_ts i) ts = true) l1 /\ Forall (fun i => tle ts (i_ts i) = true) l2
    /\ rewindHistory L s ts = Ok (true, s1, post) /\ map f_prev post = l2
    /\ par s1 = par s /\ cq s1 = cq s /\ mq s1 = mq s
    /\ (exists f0 fs km, states s1 = f0 :: fs /\ est_f f0 = est_c c0 /\ Scan c0 l1 fs km
         /\ sim0 (core s1) km /\ sim km km
         /\ (Forall (fun i => ~ real_control i) l2 -> sim (core s1) km)).
Proof.
  intros Hts Hlt HR Hl Hle.
  destruct (Rep_times s log HR Hl) as (f0 & fs & Hst & Hf0 & Htimes & Hnow & Hprev & Hsort).
  destruct HR as (Hr & f0' & fs' & kn & Hst' & He0 & Hsc & Hsim).
  rewrite Hst in Hst'. injection Hst' as <- <-.
  (* the history is not empty: otherwise now = t0 < ts *)
  destruct (hist s) as [|fr h] eqn:Eh.
  { unfold states in Hst. rewrite Eh in Hst. simpl in Hst. injection Hst as Hc Hfs.
    assert (Ec : getStateTime s = t0) by (unfold getStateTime; congruence).
    rewrite Ec in Hle. rewrite (et_lt_not_le _ _ Hx _ _ Hlt) in Hle. discriminate. }
  assert (Efr : fr = f0) by (unfold states in Hst; rewrite Eh in Hst; simpl in Hst; congruence).
  subst fr.
  destruct (rewind_sorted L Hlib Hx s ts) as (h1 & back & post & Hh & Hb & Hpost & Hrw); auto.
  { exists f0. rewrite Eh. split; auto. rewrite Hf0. auto. }
  assert (Hst2 : states s = (h1 ++ [back]) ++ (post ++ [c_cur (core s)])).
  { unfold states. rewrite Hh, <- !app_assoc. reflexivity. }
  (* split the scan at back *)
  destruct (h1 ++ [back]) as [|g0 gs] eqn:Eg; [destruct h1; discriminate|].
  rewrite Hst2 in Hst. simpl in Hst. injection Hst as -> Hfs.
  rewrite <- Hfs in Hsc.
  destruct (Scan_app_fs _ _ _ _ _ Hsc) as (l1 & l2 & km & Hlog & S1 & S2).
  assert (Hp1 : map f_prev gs = l1) by (eapply Scan_prevs; eauto).
  assert (Hp2 : map f_prev (post ++ [c_cur (core s)]) = l2) by (eapply Scan_prevs; eauto).
  assert (Hll : LogOk t0 w l1 /\ Forall (fun i => fin (i_ts i) /\ tlt t0 (i_ts i) = true) l2 /\ Forall inp_ok l2
     /\ StronglySorted (fun a b : FInput E => tlt (i_ts a) (i_ts b) = true) l2).
  { destruct Hl as (A & B & C). rewrite Hlog in A, B, C. apply StronglySorted_app_iff in A as (A1 & A2 & A3).
    apply Forall_app in B as (B1 & B2). apply Forall_app in C as (C1 & C2).
    split; [split; [|split]; auto|]. split; auto.
    eapply Forall_impl; [|exact B2]. simpl; tauto. }
  destruct Hll as (Hl1 & Hf2 & Hok2 & Hs2).
  assert (Htm : map f_ts gs = map i_ts l1 /\ map f_ts (post ++ [c_cur (core s)]) = map i_ts l2).
  { rewrite <- Hfs, Hlog, !map_app in Htimes.
    destruct (Scan_times l1 c0 gs km) as (A & _); auto; [apply Hl1 | apply LogOk_times; auto|].
    split; auto. rewrite A in Htimes. apply app_inv_head in Htimes. rewrite map_app. exact Htimes. }
  destruct Htm as (Ht1 & Ht2).
  exists l1, l2, (mkSt (par s) (set_cur (core s) back) h1 (cq s) (mq s)), (post ++ [c_cur (core s)]).
  split; [exact Hlog|]. split.
  { (* everything in gs is at or before back *)
    apply Forall_forall. intros i Hi.
    assert (Hi' : In (i_ts i) (map f_ts gs)) by (rewrite Ht1; apply in_map; auto).
    apply in_map_iff in Hi' as (f & Ef & Hf). rewrite <- Ef.
    rewrite Hst2 in Hsort. apply TimeSorted_app in Hsort as (Hs1 & _).
    rewrite <- Eg in Hs1. pose proof Hs1 as (Fin1 & _). apply TimeSorted_app in Hs1 as (_ & _ & Hbk).
    assert (Hin : In f (h1 ++ [back])) by (rewrite Eg; right; auto).
    rewrite Forall_forall in Fin1.
    apply in_app_or in Hin as Hin'. destruct Hin' as [Hin'|[<-|[]]]; auto.
    apply (tle_lt_trans Hx _ (f_ts back)); auto.
    - apply (Fin1 back). apply in_or_app; right; left; auto.
    - apply Hbk; [exact Hin'|left; reflexivity]. 
    }
  split.
  { apply Forall_forall. intros i Hi.
    assert (Hi' : In (i_ts i) (map f_ts (post ++ [c_cur (core s)]))) by (rewrite Ht2; apply in_map; auto).
    apply in_map_iff in Hi' as (f & <- & Hf). apply in_app_or in Hf as [Hf|[<-|[]]]; auto.
    rewrite Forall_forall in Hpost; auto. }
  split; [exact Hrw|]. split; [exact Hp2|]. split; [reflexivity|]. split; [reflexivity|]. split; [reflexivity|].
  exists f0, gs, km. split; [unfold states; simpl; exact Eg|]. split; [exact He0|]. split; [exact S1|].
  (* back is the last of f0 :: gs *)
  assert (Hback : est_f back = est_c km).
  { assert (El : last (f0 :: gs) f0 = back) by (rewrite <- Eg; apply last_last).
    rewrite last_cons_default in El. rewrite <- El. eapply Scan_last; eauto. }
  assert (Hkm : sim km km) by (eapply Scan_sim; [exact S1|apply Hl1|exact Hc0]).
  assert (Hsim0 : sim0 (core (mkSt (par s) (set_cur (core s) back) h1 (cq s) (mq s))) km).
  { split; [exact Hback|]. split; [|apply Hkm].
    destruct Hsim as ((_ & Ho & _) & _). exact Ho. }
  split; [exact Hsim0|]. split; [exact Hkm|].
  intros Hnc. split; [exact Hsim0|]. simpl.
  destruct (Scan_pc _ _ _ _ S2 Hnc) as (P1 & P2). destruct Hsim as (_ & Q1 & Q2 & Q3).
  repeat split; try congruence. exact Q3.
Qed.

(** ** Merging inputs into a represented log

    [merged] is any time-sorted arrangement of the part of the log after the rewind point and
    the new inputs. *)
Lemma Rep_merge (s s1 : St E) log l1 merged (s' : St E) :
  (exists f0 fs km, states s1 = f0 :: fs /\ est_f f0 = est_c c0 /\ Scan c0 l1 fs km
     /\ sim0 (core s1) km /\ sim km km
     /\ (match merged with i :: _ => real_control i \/ sim (core s1) km | [] => sim (core s1) km end)) ->
  par s1 = par s -> p_rewind (par s) = true -> p_window (par s) = w ->
  tle (tsub t0 w) t0 = true ->
  LogOk t0 w (l1 ++ merged) -> log = l1 ++ merged ->
  applyBatchInputs L s1 merged = Ok s' ->
  Rep s' log /\ par s' = par s /\ cq s' = cq s1 /\ mq s' = mq s1.
Proof.
  intros (f0 & fs & km & Hst & He0 & Hsc & Hs0 & Hkm & Hfirst) Hpar Hr Hw Hw0 Hlog -> Hb.
  apply applyBatchInputs_ok in Hb as (s2 & H2 & H3).
  assert (Hok : Forall inp_ok merged).
  { destruct Hlog as (_ & _ & Hok). apply Forall_app in Hok. tauto. }
  destruct (batch_scan merged s1 km s2) as (fs2 & kn & Hst2 & Hsc2 & Hsn & Hpar2 & Hq1 & Hq2); auto; [congruence|].
  assert (HR : Rep s2 (l1 ++ merged)).
  { split; [congruence|]. exists f0, (fs ++ fs2), kn. split; [|split; [auto|split; [|auto]]].
    - rewrite Hst2, Hst. reflexivity.
    - apply Scan_app. exists fs, fs2, km. auto. }
  rewrite (Rep_prune s2 (l1 ++ merged)) in H3; auto; [|congruence].
  injection H3 as <-. split; [exact HR|]. repeat split; congruence.
Qed.

(** *** One late or on-time input *)
Definition sorted_insert_ok (log : list (FInput E)) (inp : FInput E) (log' : list (FInput E)) : Prop :=
  exists l1 l2, log = l1 ++ l2 /\ log' = l1 ++ inp :: l2
    /\ Forall (fun i => tlt (i_ts i) (i_ts inp) = true) l1
    /\ Forall (fun i => tlt (i_ts inp) (i_ts i) = true) l2.

(** an input may be merged at its place if it is a control, or no control in the log is newer *)
Definition late_ok (log : list (FInput E)) (inp : FInput E) : Prop :=
  real_control inp \/ Forall (fun i => real_control i -> tlt (i_ts i) (i_ts inp) = true) log.

Definition new_input (inp : FInput E) (log : list (FInput E)) : Prop :=
  fin (i_ts inp) /\ tlt t0 (i_ts inp) = true /\ tle (tsub (i_ts inp) w) t0 = true /\ inp_ok inp
  /\ ~ In (i_ts inp) (map i_ts log).

Lemma LogOk_insert l1 l2 inp : LogOk t0 w (l1 ++ l2) -> new_input inp (l1 ++ l2) ->
  Forall (fun i => tlt (i_ts i) (i_ts inp) = true) l1 ->
  Forall (fun i => tlt (i_ts inp) (i_ts i) = true) l2 ->
  LogOk t0 w (l1 ++ inp :: l2).
Proof.
  intros (Hs & Hf & Ho) (N1 & N2 & N3 & N4 & _) H1 H2.
  apply StronglySorted_app_iff in Hs as (S1 & S2 & S3). rewrite !Forall_app in *.
  split; [|split].
  - apply StronglySorted_app_iff. split; auto. split; [constructor; auto|].
    rewrite Forall_forall in *. intros a Ha. constructor; auto.
  - apply Forall_app. split; [apply Hf|constructor; [auto|apply Hf]].
  - apply Forall_app. split; [apply Ho|constructor; [auto|apply Ho]].
Qed.

Lemma not_in_lt (inp : FInput E) l : fin (i_ts inp) -> Forall (fun i => fin (i_ts i)) l ->
  ~ In (i_ts inp) (map i_ts l) -> Forall (fun i : FInput E => tle (i_ts inp) (i_ts i) = true) l ->
  Forall (fun i => tlt (i_ts inp) (i_ts i) = true) l.
Proof.
  intros Hi Hf Hn Hl. rewrite Forall_forall in *. intros i Hin.
  destruct (tle_lt_or_eq Hx (i_ts inp) (i_ts i)) as [|Heq]; auto.
  exfalso. apply Hn. rewrite Heq. apply in_map. auto.
Qed.

Lemma LogOk_fin log : LogOk t0 w log -> Forall (fun i => fin (i_ts i)) log.
Proof. intros (_ & H & _). eapply Forall_impl; [|exact H]. simpl; tauto. Qed.

Lemma last_in_or {A} (l : list A) d : last l d = d \/ In (last l d) l.
Proof.
  destruct l as [|a l] using rev_ind; [left; reflexivity|right]. rewrite last_last.
  apply in_or_app; right; left; reflexivity.
Qed.

Lemma now_fin s log : Rep s log -> LogOk t0 w log -> fin (getStateTime s).
Proof.
  intros HR Hl. destruct (Rep_times s log HR Hl) as (f0 & fs & _ & _ & _ & Hnow & _).
  rewrite Hnow. destruct (last_in_or (map i_ts log) t0) as [->|Hin]; auto.
  apply in_map_iff in Hin as (i & <- & Hi). apply LogOk_fin in Hl. rewrite Forall_forall in Hl. auto.
Qed.

Lemma all_before s log ts : Rep s log -> LogOk t0 w log -> fin ts -> tlt t0 ts = true ->
  tlt (getStateTime s) ts = true -> Forall (fun i => tlt (i_ts i) ts = true) log.
Proof.
  intros HR Hl Hts Hlt Hn. destruct (Rep_times s log HR Hl) as (f0 & fs & _ & _ & _ & Hnow & _).
  pose proof (LogOk_fin _ Hl) as Hf. destruct Hl as (Hs & _).
  destruct log as [|i log' _] using rev_ind; [constructor|].
  rewrite map_app in Hnow. simpl in Hnow. rewrite last_last in Hnow. rewrite Hnow in Hn.
  apply StronglySorted_app_iff in Hs as (_ & _ & S3). apply Forall_app in Hf as (F1 & F2).
  inversion F2; subst.
  apply Forall_app. split; [|constructor; auto].
  rewrite Forall_forall in *. intros j Hj. specialize (S3 j Hj). inversion S3; subst.
  apply (tlt_trans Hx _ (i_ts i)); auto.
Qed.

Lemma apply_late_Rep s log inp s' :
  Rep s log -> LogOk t0 w log -> p_window (par s) = w -> tle (tsub t0 w) t0 = true ->
  new_input inp log -> late_ok log inp -> apply_late L s inp = Ok s' ->
  exists log', sorted_insert_ok log inp log' /\ Rep s' log' /\ LogOk t0 w log'
    /\ par s' = par s /\ cq s' = cq s /\ mq s' = mq s.
Proof.
  intros HR Hl Hw Hw0 Hnew Hlate Ha. pose proof HR as (Hr & _).
  pose proof Hnew as (N1 & N2 & N3 & N4 & N5).
  pose proof (now_fin s log HR Hl) as Fn.
  unfold apply_late in Ha. destruct (tlt (i_ts inp) (getStateTime s)) eqn:Et.
  - destruct (Rep_rewind s log (i_ts inp) N1 N2 HR Hl) as (l1 & l2 & s1 & post & Hlog & A1 & A2 & Hrw & Hp & Hpar & Hq1 & Hq2 & Hex).
    { apply (tlt_le Hx); auto. }
    rewrite Hrw in Ha. cbn [obind negb] in Ha. rewrite Hp in Ha.
    pose proof (LogOk_fin _ Hl) as Hfl. rewrite Hlog in Hfl. apply Forall_app in Hfl as (F1 & F2).
    assert (B2 : Forall (fun i => tlt (i_ts inp) (i_ts i) = true) l2).
    { apply not_in_lt; auto. intros Hin. apply N5. rewrite Hlog, map_app. apply in_or_app; auto. }
    assert (HLo : LogOk t0 w (l1 ++ inp :: l2)) by (apply LogOk_insert; auto; rewrite <- Hlog; auto).
    destruct Hex as (f0 & fs & km & E1 & E2 & E3 & E4 & E5 & E6).
    destruct (Rep_merge s s1 (l1 ++ inp :: l2) l1 (inp :: l2) s') as (R1 & R2 & R3 & R4); auto.
    { exists f0, fs, km. do 5 (split; [assumption|]).
      destruct Hlate as [Hc|Hc]; [left; exact Hc|right]. apply E6.
      rewrite Hlog in Hc. apply Forall_app in Hc as (_ & Hc).
      rewrite Forall_forall in *. intros i Hi Hrc. specialize (Hc i Hi Hrc).
      specialize (B2 i Hi). rewrite (tlt_asym Hx (i_ts i) (i_ts inp)) in B2; auto. discriminate. }
    exists (l1 ++ inp :: l2). split; [exists l1, l2; auto|]. split; [exact R1|]. split; [exact HLo|]. repeat split; congruence.
  - cbn [obind negb map] in Ha.
    apply (tlt_false_iff Hx) in Et; auto.
    assert (Hlt : tlt (getStateTime s) (i_ts inp) = true).
    { destruct (tle_lt_or_eq Hx (getStateTime s) (i_ts inp)) as [|Heq]; auto. exfalso.
      destruct (Rep_times s log HR Hl) as (f0 & fs & _ & _ & _ & Hnow & _).
      destruct (last_in_or (map i_ts log) t0) as [Hl0|Hin].
      - rewrite <- Heq, Hnow, Hl0, (tlt_irrefl Hx) in N2; auto; discriminate.
      - apply N5. rewrite <- Heq, Hnow. exact Hin. }
    pose proof (all_before s log (i_ts inp) HR Hl N1 N2 Hlt) as Hbef.
    assert (HLo : LogOk t0 w (log ++ inp :: [])).
    { apply LogOk_insert; auto; rewrite app_nil_r; auto. }
    destruct HR as (_ & f0 & fs & kn & E1 & E2 & E3 & E4).
    destruct (Rep_merge s s (log ++ [inp]) log [inp] s') as (R1 & R2 & R3 & R4); auto.
    { exists f0, fs, kn. do 3 (split; [assumption|]). split; [apply E4|]. split; [eapply sim_refl; eauto|]. auto. }
    exists (log ++ [inp]). split; [exists log, []; rewrite app_nil_r; auto|].
    split; [exact R1|]. split; [exact HLo|]. repeat split; congruence.
Qed.
End Replay.
