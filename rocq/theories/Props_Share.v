(** C108: two filters on the same model objects (or a filter and a copy of it).  FilterBase keeps raw
    pointers to the system and measurement models (filter_base.h:244, 51-59) and the implicit copy
    constructor copies the pointers, so everything a call stores in a model object is seen by the other
    filter. *)
From Coq Require Import ZArith List Bool Arith Lia.
From Verif Require Import Outcome FB_Model FB_Time FB_Trace FB_Basic FB_Spec FB_Inv FB_Sim Props_FilterBase Props_Queue Props_Models.
Import ListNotations.

Section Two.
Context {TT : TimeOps} {E : Env TT} (L : Lib E).

(** calls on the first and on the second of two filters, on the system model object they share, and
    [second = first] (copy assignment) *)
Inductive Call : Type :=
| First (o : Op (E := E))
| Second (o : Op (E := E))
| OnSystem (f : Sys E -> Sys E)
| Copy.

(** [s] with the model objects as they are in [a] *)
Definition sees (a s : St E) : St E :=
  mkSt (par s) (set_meas (set_sys (core s) (c_sys (core a))) (c_meas (core a))) (hist s) (cq s) (mq s).
Definition call (ss : St E * St E) (c : Call) : outcome (St E * St E) :=
  match c with
  | First o => let* a := step L (fst ss) o in Ok (a, sees a (snd ss))
  | Second o => let* b := step L (snd ss) o in Ok (sees b (fst ss), b)
  | OnSystem f => let* a := step L (fst ss) (OpSys f) in Ok (a, sees a (snd ss))
  | Copy => Ok (fst ss, fst ss)
  end.
Definition calls (cs : list Call) (ss : St E * St E) : outcome (St E * St E) := ofold call cs ss.

(** what a filter has been told: the estimate it was made with, and the calls.  [told cs a b] is what
    the two filters have been told after [cs], if they were made with [a] and [b] *)
Definition Told : Type := ((V E * Mx E * TT) * list (Op (E := E)))%type.
Definition tell_one (d : Told) (o : Op (E := E)) : Told := (fst d, snd d ++ [o]).
Definition tell (d : Told * Told) (c : Call) : Told * Told :=
  match c with
  | First o => (tell_one (fst d) o, snd d)
  | Second o => (fst d, tell_one (snd d) o)
  | OnSystem f => (tell_one (fst d) (OpSys f), tell_one (snd d) (OpSys f))
  | Copy => (fst d, fst d)
  end.
Definition told (cs : list Call) (a b : V E * Mx E * TT) : Told * Told := fold_left tell cs ((a, []), (b, [])).
Definition made (sy : Sys E) (ms : list (Meas E)) (a : V E * Mx E * TT) : St E := new_filter sy ms (fst (fst a)) (snd (fst a)) (snd a).
(** a filter told the same, on model objects of its own *)
Definition alone (sy : Sys E) (ms : list (Meas E)) (d : Told) : outcome (St E) := run L (snd d) (made sy ms (fst d)).
Definition same_answers (s s' : St E) : Prop :=
  getState s = getState s' /\ getCovariance s = getCovariance s' /\ getStateTime s = getStateTime s'.

(** model objects that have no memory a filter would notice: [SC] and [MC k] are the states the objects
    go through; in all of them they have the same control covariance and do the same *)
Record forgetful (SC : Sys E -> Prop) (MC : nat -> Meas E -> Prop) (Rc : Mx E) : Prop := {
  fo_size : forall s1 s2, SC s1 -> SC s2 -> s_csize s1 = s_csize s2;
  fo_Rc : forall s1, SC s1 -> s_Rc s1 = Rc;
  fo_control : forall s1 s2 x P d u dt, SC s1 -> SC s2 ->
    orel (fun r1 r2 => SC (fst (fst r1)) /\ SC (fst (fst r2)) /\ snd (fst r1) = snd (fst r2) /\ snd r1 = snd r2)
         (control_update s1 x P d u Rc dt) (control_update s2 x P d u Rc dt);
  fo_meas : forall k s1 s2 m1 m2 x P z Q dt, SC s1 -> SC s2 -> MC k m1 -> MC k m2 ->
    orel (fun r1 r2 => SC (fst (fst (fst r1))) /\ SC (fst (fst (fst r2))) /\ MC k (snd (fst (fst r1))) /\ MC k (snd (fst (fst r2)))
                       /\ snd (fst r1) = snd (fst r2) /\ snd r1 = snd r2)
         (meas_update s1 m1 x P z Q dt) (meas_update s2 m2 x P z Q dt)
}.

Context (SC : Sys E -> Prop) (MC : nat -> Meas E -> Prop) (Rc : Mx E) (HF : forgetful SC MC Rc).
Context (HL : same_lib L L) (Hsort : forall l i, In i (lib_sort L l) -> In i l) (Hv : vsize (vempty : V E) = 0).

Let XR (x1 : V E) (P1 : Mx E) (x2 : V E) (P2 : Mx E) : Prop := x1 = x2 /\ P1 = P2.
Let SR (a b : Sys E) : Prop := SC a /\ SC b.
Let RR (a b : Mx E) : Prop := a = Rc /\ b = Rc.
Let MR (k : nat) (a b : Meas E) : Prop := MC k a /\ MC k b.
Let Rel := st_rel (E1 := E) (E2 := E) XR eq RR SR MR (fun _ => XR).

Lemma share_sim : Simulates (E1 := E) (E2 := E) XR eq RR SR MR (fun _ => XR).
Proof.
  constructor; auto.
  - intros u1 u2 ->. auto.
  - intros s1 s2 (A & B). rewrite (fo_size _ _ _ HF s1 s2); auto.
  - intros s1 s2 (A & B). split; apply (fo_Rc _ _ _ HF); auto.
  - intros s1 s2 x1 P1 x2 P2 d1 d2 u1 u2 R1 R2 dt (A & B) (-> & ->) -> -> (-> & ->).
    eapply orel_impl; [|apply (fo_control _ _ _ HF); auto]. intros r1 r2 (H1 & H2 & H3 & H4). repeat split; auto.
  - intros k s1 s2 m1 m2 x1 P1 x2 P2 z1 z2 Q1 Q2 dt (A & B) (C & D) (-> & ->) (-> & ->).
    eapply orel_impl; [|apply (fo_meas _ _ _ HF k); auto]. intros r1 r2 (H1 & H2 & H3 & H4 & H5 & H6). repeat split; auto.
Qed.

(** no call on the model objects themselves *)
Definition no_object_call (c : Call) : Prop :=
  match c with First (OpSys _) | First (OpMeas _) | Second (OpSys _) | Second (OpMeas _) | OnSystem _ => False | _ => True end.

Lemma op_self o : match o with OpSys _ | OpMeas _ => False | _ => True end -> op_rel (E1 := E) (E2 := E) XR eq SR MR (fun _ => XR) o o.
Proof. destruct o; simpl; intros; try contradiction; unfold XR; repeat split; auto; destruct m; auto. Qed.

Lemma list_set_length {A} (l : list A) : forall i a, length (list_set l i a) = length l.
Proof. induction l as [|b l IH]; intros [|i] a; simpl; auto. Qed.
Lemma input_core_count (c c' : Core E) i : input_core c i = Ok c' -> length (c_meas c') = length (c_meas c).
Proof.
  intros H. unfold input_core in H. apply obind_ok in H as (c1 & H1 & H2). injection H2 as <-. simpl.
  destruct (i_ctl i).
  - apply obind_ok in H1 as (c2 & H3 & H4). injection H4 as <-. simpl. apply applyControl_meas in H3. congruence.
  - unfold applyMeasurementInput in H1. apply obind_ok in H1 as (c2 & H3 & H4).
    assert (Hm : c_meas c2 = c_meas c).
    { unfold advance_if_needed in H3. destruct (tlt tzero _); [|injection H3 as <-; auto].
      apply obind_ok in H3 as (c3 & H5 & H6). injection H6 as <-. apply applyControl_meas in H5. exact H5. }
    destruct (i_model i) as [j|]; [|discriminate]. destruct (nth_error (c_meas c2) j); [|discriminate].
    apply obind_ok in H4 as ([[[? mm] ?] ?] & _ & H8). injection H8 as <-. simpl. rewrite list_set_length, Hm. auto.
Qed.
Lemma step_count (s s' : St E) o : match o with OpSys _ | OpMeas _ => False | _ => True end -> step L s o = Ok s' ->
  length (c_meas (core s')) = length (c_meas (core s)).
Proof.
  intros Ho Hr. set (n := length (c_meas (core s))).
  assert (HI : AllInv (fun c : Core E => length (c_meas c) = n) (fun _ => True) (fun _ => True) s').
  { eapply step_inv; [exact Hsort| | | |exact Hr].
    - constructor; simpl; auto. intros c i c' A _ Hin. rewrite <- A. eapply input_core_count; eauto.
    - split; [reflexivity|]. split; [|split]; apply Forall_forall; auto.
    - destruct o; simpl in *; auto; try contradiction. }
  apply HI.
Qed.

Lemma meas_rel_swap : forall a a' b b' k, meas_rel (E1 := E) (E2 := E) MR k a a' -> meas_rel (E1 := E) (E2 := E) MR k b b' -> length a = length b ->
  meas_rel (E1 := E) (E2 := E) MR k a b'.
Proof.
  induction a as [|x a IH]; intros [|x' a'] [|y b] [|y' b'] k Ha Hb Hl; simpl in *; try contradiction; try discriminate; auto.
  destruct Ha as ((A & _) & Ha), Hb as ((_ & B) & Hb). split; [split; auto|]. eapply IH; eauto.
Qed.
Lemma sees_rel (a a' s s' : St E) : Rel a a' -> Rel s s' -> length (c_meas (core a)) = length (c_meas (core s)) -> Rel (sees a s) s'.
Proof.
  intros (_ & (_ & _ & _ & (HS & _) & HM) & _) (Hp & (Hc & Hu & Hr & (_ & HS') & HM') & Hh & Hq & Hm) Hl.
  split; [|split; [|split; [|split]]]; simpl; auto. split; [|split; [|split; [|split]]]; simpl; auto.
  - split; auto.
  - eapply meas_rel_swap; eauto.
Qed.

Lemma run_snoc ops o (s : St E) : run L (ops ++ [o]) s = obind (run L ops s) (fun s1 => step L s1 o).
Proof.
  unfold run. revert s. induction ops as [|o' ops IH]; intros s; simpl.
  - destruct (step L s o); reflexivity.
  - destruct (step L s o'); simpl; auto.
Qed.

(** two filters that share forgetful objects answer as if each had its own *)
Theorem C108_forgetful_partial sy ms a b cs s1 s2 :
  SC sy -> (forall k m, nth_error ms k = Some m -> MC k m) -> Forall no_object_call cs ->
  calls cs (made sy ms a, made sy ms b) = Ok (s1, s2) ->
  exists s1' s2', alone sy ms (fst (told cs a b)) = Ok s1' /\ alone sy ms (snd (told cs a b)) = Ok s2'
    /\ same_answers s1 s1' /\ same_answers s2 s2'.
Proof.
  intros Hsy Hms Hcs.
  assert (HM0 : meas_rel (E1 := E) (E2 := E) MR 0 ms ms).
  { assert (G : forall l j, (forall k m, nth_error l k = Some m -> MC (j + k) m) -> meas_rel (E1 := E) (E2 := E) MR j l l).
    { induction l as [|q l IH]; intros j Hl; simpl; auto. split.
      - specialize (Hl 0 q eq_refl). rewrite Nat.add_0_r in Hl. split; auto.
      - apply IH. intros k m Hk. rewrite Nat.add_succ_comm. apply (Hl (S k) m Hk). }
    apply G. exact Hms. }
  assert (HN : forall e, Rel (made sy ms e) (made sy ms e)).
  { intros e. apply (new_filter_sim _ _ _ _ _ _ share_sim); [split; auto|exact HM0|split; auto]. }
  set (good := fun (ss : St E * St E) (d : Told * Told) => exists s1' s2',
    alone sy ms (fst d) = Ok s1' /\ alone sy ms (snd d) = Ok s2' /\ Rel (fst ss) s1' /\ Rel (snd ss) s2'
    /\ length (c_meas (core (fst ss))) = length (c_meas (core (snd ss)))).
  assert (Hstep : forall s s' o x, match o with OpSys _ | OpMeas _ => False | _ => True end -> Rel s s' -> step L s o = Ok x ->
     exists x', step L s' o = Ok x' /\ Rel x x').
  { intros s s' o x Ho Hr Hx. pose proof (step_sim _ _ _ _ _ _ share_sim L L HL s s' o o Hr (op_self o Ho)) as Ho'.
    rewrite Hx in Ho'. destruct (step L s' o) as [x'|u]; [|contradiction]. eauto. }
  assert (Hall : forall cs ss ss' d, Forall no_object_call cs -> good ss d -> calls cs ss = Ok ss' -> good ss' (fold_left tell cs d)).
  { clear cs Hcs s1 s2. induction cs as [|c cs IH]; intros ss ss' d Hcs Hg Hr; unfold calls in Hr; cbn [ofold] in Hr.
    { injection Hr as <-. exact Hg. }
    apply obind_ok in Hr as (sm & H1 & H2). inversion Hcs as [|? ? Hc Hcs']; subst. cbn [fold_left].
    apply (IH sm ss' _ Hcs'); [|exact H2]. clear IH H2 Hcs Hcs' cs ss'.
    destruct Hg as (s1' & s2' & A1 & A2 & R1 & R2 & Hl). unfold alone in A1, A2. destruct ss as [s1 s2]. cbn [fst snd] in *.
    destruct c as [o|o|f|]; cbn [call fst snd] in H1.
    - apply obind_ok in H1 as (x & Hx & Hq). injection Hq as <-.
      assert (Ho : match o with OpSys _ | OpMeas _ => False | _ => True end) by (destruct o; simpl in Hc; auto).
      destruct (Hstep _ _ _ _ Ho R1 Hx) as (x' & Hx' & Rx). exists x', s2'. unfold alone. cbn [tell tell_one fst snd].
      rewrite run_snoc, A1. cbn [obind]. pose proof (step_count _ _ _ Ho Hx) as Hn.
      assert (Hxl : length (c_meas (core x)) = length (c_meas (core s2))) by congruence.
      split; [exact Hx'|]. split; [exact A2|]. split; [exact Rx|]. split; [apply (sees_rel x x' s2 s2'); auto|reflexivity].
    - apply obind_ok in H1 as (x & Hx & Hq). injection Hq as <-.
      assert (Ho : match o with OpSys _ | OpMeas _ => False | _ => True end) by (destruct o; simpl in Hc; auto).
      destruct (Hstep _ _ _ _ Ho R2 Hx) as (x' & Hx' & Rx). exists s1', x'. unfold alone. cbn [tell tell_one fst snd].
      rewrite run_snoc, A2. cbn [obind]. pose proof (step_count _ _ _ Ho Hx) as Hn.
      assert (Hxl : length (c_meas (core x)) = length (c_meas (core s1))) by congruence.
      split; [exact A1|]. split; [exact Hx'|]. split; [apply (sees_rel x x' s1 s1'); auto|]. split; [exact Rx|reflexivity].
    - contradiction Hc.
    - injection H1 as <-. exists s1', s1'. cbn [tell fst snd]. unfold alone. repeat (split; [first [exact A1|exact R1]|]). reflexivity. }
  intros Hr. destruct (Hall cs (made sy ms a, made sy ms b) (s1, s2) ((a, []), (b, []))) as (s1' & s2' & A1 & A2 & R1 & R2 & _); auto.
  { exists (made sy ms a), (made sy ms b). unfold alone, run. cbn [ofold fst snd].
    split; [reflexivity|]. split; [reflexivity|]. split; [apply HN|]. split; [apply HN|reflexivity]. }
  exists s1', s2'. fold (told cs a b) in A1, A2. split; [exact A1|]. split; [exact A2|].
  assert (Hs : forall s s', Rel s s' -> same_answers s s').
  { intros s s' (_ & (((Hx & HP) & Ht & _) & _) & _). split; [exact Hx|]. split; [exact HP|exact Ht]. }
  cbn [fst snd] in R1, R2. split; apply Hs; auto.
Qed.
End Two.
Arguments Call {TT} E.
Arguments First {TT E} _.
Arguments Second {TT E} _.
Arguments OnSystem {TT E} _.
Arguments Copy {TT E}.

(** C108 as a user would want it: each of the two filters answers as it would on objects of its own *)
Definition C108_claim : Prop :=
  forall (TT : TimeOps) (E : Env TT) (L : Lib E) sy ms a b cs s1 s2 s1' s2',
  calls L cs (made sy ms a, made sy ms b) = Ok (s1, s2) ->
  alone L sy ms (fst (told cs a b)) = Ok s1' -> alone L sy ms (snd (told cs a b)) = Ok s2' ->
  same_answers s1 s1' /\ same_answers s2 s2'.
(** false: predict(t) on the first filter puts back the control covariance of its last control, and the
    second filter then uses that instead of the one the user has set since *)
Definition shared_cs : list (Call ZE) :=
  [First (OpPredictU (zd [5%Z]) (zt 1)); OnSystem (E := ZE) (set_Rc 9); First (OpPredictT (zt 2)); Second (OpPredictU (zd [6%Z]) (zt 1))].
Theorem C108_refuted : ~ C108_claim.
Proof.
  intros H. pose (a := ([], 0%Z, zt 0) : V ZE * Mx ZE * ZTime).
  unshelve epose proof (H ZTime ZE GL zsys [0%Z] a a shared_cs
    (fst (got (calls GL shared_cs (made zsys [0%Z] a, made zsys [0%Z] a)) (znew0, znew0)))
    (snd (got (calls GL shared_cs (made zsys [0%Z] a, made zsys [0%Z] a)) (znew0, znew0)))
    (got (alone GL zsys [0%Z] (fst (told shared_cs a a))) znew0) (got (alone GL zsys [0%Z] (snd (told shared_cs a a))) znew0) _ _ _) as C.
  - rewrite <- surjective_pairing. apply got_ok. vm_compute. reflexivity.
  - apply got_ok. vm_compute. reflexivity.
  - apply got_ok. vm_compute. reflexivity.
  - destruct C as (_ & C & _). apply (f_equal digest) in C. vm_compute in C. discriminate C.
Qed.
