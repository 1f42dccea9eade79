(** One-sided version of FB_Sim.v: the second filter is a reference.  As long as the reference runs, the first
    filter stays related to it, or fails in one of the ways [allow] names (for instance a singular matrix,
    which the reference does not invert).  If the reference stops, nothing is said. *)
From Coq Require Import List Bool Arith Lia.
From Verif Require Import Outcome FB_Model FB_Sim.
Import ListNotations.

Definition wrel {A B : Type} (allow : ub -> Prop) (Q : A -> B -> Prop) (x : outcome A) (y : outcome B) : Prop :=
  match x, y with
  | Ok a, Ok b => Q a b
  | Ub c, Ok _ => allow c
  | _, Ub _ => True
  end.

Lemma wrel_bind {A B A' B'} al (Q : A -> B -> Prop) (Q' : A' -> B' -> Prop) x y f g :
  wrel al Q x y -> (forall a b, Q a b -> wrel al Q' (f a) (g b)) -> wrel al Q' (obind x f) (obind y g).
Proof.
  destruct x as [a|c], y as [b|d]; simpl; intros H1 H2; auto.
  - destruct (f a); exact I.
  - destruct (g b); auto.
Qed.

Lemma wrel_impl {A B} al (Q Q' : A -> B -> Prop) x y : (forall a b, Q a b -> Q' a b) -> wrel al Q x y -> wrel al Q' x y.
Proof. destruct x, y; simpl; auto. Qed.

Lemma wrel_ofold {A B S S'} al (Q : S -> S' -> Prop) (RA : A -> B -> Prop) f g :
  (forall s s' a b, Q s s' -> RA a b -> wrel al Q (f s a) (g s' b)) ->
  forall l l', Forall2 RA l l' -> forall s s', Q s s' -> wrel al Q (ofold f l s) (ofold g l' s').
Proof.
  intros H l l' Hl; induction Hl; intros s s' Hs; simpl; auto.
  eapply wrel_bind; eauto.
Qed.

Section Sim.
Context {TT : TimeOps} {E1 E2 : Env TT}.
Context (XR : V E1 -> Mx E1 -> V E2 -> Mx E2 -> Prop) (UR : V E1 -> V E2 -> Prop)
        (RR : Mx E1 -> Mx E2 -> Prop) (SR : Sys E1 -> Sys E2 -> Prop)
        (MR : nat -> Meas E1 -> Meas E2 -> Prop) (ZR : nat -> V E1 -> Mx E1 -> V E2 -> Mx E2 -> Prop)
        (allow : ub -> Prop).
Notation inp_rel := (FB_Sim.inp_rel UR RR ZR).
Notation fst_rel := (FB_Sim.fst_rel XR UR RR ZR).
Notation meas_rel := (FB_Sim.meas_rel MR).
Notation core_rel := (FB_Sim.core_rel XR UR RR SR MR ZR).
Notation st_rel := (FB_Sim.st_rel XR UR RR SR MR ZR).
Notation op_rel := (FB_Sim.op_rel XR UR SR MR ZR).

(** what is asked of the functions FilterBase calls *)
Record Follows : Prop := {
  fw_empty : UR vempty vempty;
  fw_empty0 : vsize (vempty : V E1) = 0;
  fw_size : forall u1 u2, UR u1 u2 -> vsize u1 = vsize u2;
  fw_zero : forall s1 s2, SR s1 s2 -> UR (vzero (s_csize s1)) (vzero (s_csize s2));
  fw_Rc : forall s1 s2, SR s1 s2 -> RR (s_Rc s1) (s_Rc s2);
  (* a control: checkForStationary, isStationary, setControlCovariance, myPredict, ... *)
  fw_control : forall s1 s2 x1 P1 x2 P2 d1 d2 u1 u2 R1 R2 dt,
    SR s1 s2 -> XR x1 P1 x2 P2 -> UR d1 d2 -> UR u1 u2 -> RR R1 R2 ->
    wrel allow (fun r1 r2 => SR (fst (fst r1)) (fst (fst r2)) /\ XR (snd (fst r1)) (snd r1) (snd (fst r2)) (snd r2))
         (control_update s1 x1 P1 d1 u1 R1 dt) (control_update s2 x2 P2 d2 u2 R2 dt);
  fw_meas : forall k s1 s2 m1 m2 x1 P1 x2 P2 z1 z2 Q1 Q2 dt,
    SR s1 s2 -> MR k m1 m2 -> XR x1 P1 x2 P2 -> ZR k z1 Q1 z2 Q2 ->
    wrel allow (fun r1 r2 => SR (fst (fst (fst r1))) (fst (fst (fst r2))) /\ MR k (snd (fst (fst r1))) (snd (fst (fst r2))) /\
                       XR (snd (fst r1)) (snd r1) (snd (fst r2)) (snd r2))
         (meas_update s1 m1 x1 P1 z1 Q1 dt) (meas_update s2 m2 x2 P2 z2 Q2 dt)
}.

Context (H : Follows).

Lemma meas_rel_nth : forall l1 l2 j k, meas_rel j l1 l2 ->
  match nth_error l1 k, nth_error l2 k with Some a, Some b => MR (j + k) a b | None, None => True | _, _ => False end.
Proof.
  induction l1 as [|a l1 IH]; intros [|b l2] j k Hr; simpl in Hr; try contradiction.
  - destruct k; simpl; auto.
  - destruct Hr as (Ha & Hl). destruct k as [|k]; simpl.
    + rewrite Nat.add_0_r; auto.
    + rewrite <- plus_n_Sm. apply (IH l2 (S j) k Hl).
Qed.
Lemma meas_rel_set : forall l1 l2 j k a b, meas_rel j l1 l2 -> MR (j + k) a b -> meas_rel j (list_set l1 k a) (list_set l2 k b).
Proof.
  induction l1 as [|c l1 IH]; intros [|d l2] j k a b Hr Hab; simpl in Hr; try contradiction; simpl; auto.
  destruct Hr as (Hc & Hl). destruct k as [|k]; simpl.
  - rewrite Nat.add_0_r in Hab. auto.
  - split; auto. apply IH; auto. rewrite Nat.add_succ_comm. auto.
Qed.

Lemma applyControlInput_fw c d i j : core_rel c d -> i_ts i = i_ts j -> UR (i_data i) (i_data j) ->
  (vsize (i_data i) = 0 \/ RR (i_cov i) (i_cov j)) ->
  wrel allow core_rel (applyControlInput c i) (applyControlInput d j).
Proof.
  intros (Hc & Hu & Hr & Hs & Hm) Ht Hd Hcov. pose proof Hc as (Hx & Hts & Hp).
  unfold applyControlInput, choose_control. rewrite <- Ht, <- Hts.
  rewrite <- (fw_size H _ _ Hd). destruct (Nat.ltb_spec 0 (vsize (i_data i))) as [Hz|Hz].
  - eapply wrel_bind.
    + simpl. apply (fw_control H); eauto. destruct Hcov; [lia|auto].
    + intros [[s1 x1] P1] [[s2 x2] P2] (A & B). simpl in *. repeat split; simpl; auto; try apply Hp.
  - rewrite <- (fw_size H _ _ Hu). destruct (Nat.ltb_spec 0 (vsize (c_pc c))) as [Hy|Hy].
    + eapply wrel_bind.
      * simpl. apply (fw_control H); eauto. destruct Hr; [lia|auto].
      * intros [[s1 x1] P1] [[s2 x2] P2] (A & B). simpl in *. repeat split; simpl; auto; try apply Hp.
    + eapply wrel_bind.
      * simpl. apply (fw_control H); eauto; [apply (fw_zero H)|apply (fw_Rc H)]; auto.
      * intros [[s1 x1] P1] [[s2 x2] P2] (A & B). simpl in *. repeat split; simpl; auto; try apply Hp.
Qed.

Lemma set_ts_fw c d t : core_rel c d -> core_rel (set_ts c t) (set_ts d t).
Proof. intros ((Hx & Hts & Hp) & Hr). split; [|exact Hr]. split; [|split]; auto. Qed.
Lemma core_ts c d : core_rel c d -> f_ts (c_cur c) = f_ts (c_cur d).
Proof. intros ((_ & Hts & _) & _). auto. Qed.

Lemma advance_fw c d i j dt : core_rel c d -> i_ts i = i_ts j ->
  wrel allow core_rel (advance_if_needed c i dt) (advance_if_needed d j dt).
Proof.
  intros Hc Ht. unfold advance_if_needed. destruct (tlt tzero dt); [|simpl; auto].
  eapply wrel_bind.
  - apply applyControlInput_fw; simpl; eauto; apply Hc.
  - intros c1 d1 H1. simpl. rewrite (core_ts _ _ H1). apply set_ts_fw; auto.
Qed.

Lemma applyMeasurementInput_fw c d i j : core_rel c d -> inp_rel i j -> i_ctl i = false ->
  wrel allow core_rel (applyMeasurementInput c i) (applyMeasurementInput d j).
Proof.
  intros Hc (Ht & Hct & Hk & Hz) Hf. rewrite Hf in Hz. unfold applyMeasurementInput.
  rewrite <- (core_ts _ _ Hc), <- Ht, <- Hk.
  eapply wrel_bind; [apply advance_fw; auto|]. intros c1 d1 H1.
  destruct (i_model i) as [k|]; [|simpl; auto].
  pose proof H1 as ((Hx & Hts & Hp) & Hu & Hr & Hs & Hm).
  pose proof (meas_rel_nth _ _ 0 k Hm) as Hn.
  destruct (nth_error (c_meas c1) k) as [m1|], (nth_error (c_meas d1) k) as [m2|]; try contradiction; [|simpl; auto].
  eapply wrel_bind.
  - apply (fw_meas H k); eauto.
  - intros [[[s1 q1] x1] P1] [[[s2 q2] x2] P2] (A & B & C). simpl in *.
    destruct Hp as (P1' & P2' & P3' & P4').
    repeat split; simpl; auto. apply meas_rel_set; auto.
Qed.

Lemma input_core_fw c d i j : core_rel c d -> inp_rel i j -> wrel allow core_rel (input_core c i) (input_core d j).
Proof.
  intros Hc Hi. pose proof Hi as (Ht & Hct & Hk & Hz). unfold input_core.
  rewrite <- (core_ts _ _ Hc), <- Ht, <- Hct.
  eapply wrel_bind with (Q := core_rel).
  - destruct (i_ctl i) eqn:Ec.
    + eapply wrel_bind; [apply applyControlInput_fw; auto; apply Hz|]. intros c1 d1 H1. simpl.
      rewrite (core_ts _ _ H1). apply set_ts_fw; auto.
    + apply applyMeasurementInput_fw; auto.
  - intros c1 d1 ((Hx & Hts & Hp) & Hr). simpl. split; [|exact Hr]. split; [|split]; auto.
Qed.

Lemma applyInput_fw s t i j : st_rel s t -> inp_rel i j -> wrel allow st_rel (applyInput s i) (applyInput t j).
Proof.
  intros (Hp & Hc & Hh & Hq & Hm) Hi. unfold applyInput.
  eapply wrel_bind; [apply input_core_fw; eauto|]. intros c d Hcd. simpl.
  rewrite <- Hp. repeat split; simpl; auto; try apply Hcd.
  destruct (p_rewind (par s)); auto. apply Forall2_app; auto. constructor; auto. apply Hc.
Qed.

Context (L1 : Lib E1) (L2 : Lib E2) (HL : same_lib L1 L2).

Lemma pop_ok_fw b n : pop_ok L1 b n = pop_ok L2 b n.
Proof. unfold pop_ok. destruct HL as (-> & _). auto. Qed.

Definition states_rel (a : list (FState E1) * list (FState E1)) (b : list (FState E2) * list (FState E2)) : Prop :=
  Forall2 fst_rel (fst a) (fst b) /\ Forall2 fst_rel (snd a) (snd b).

Lemma rewind_loop_fw ts : forall base h h' post post', Forall2 fst_rel h h' -> Forall2 fst_rel post post' ->
  wrel allow states_rel (rewind_loop L1 ts base h post) (rewind_loop L2 ts base h' post').
Proof.
  induction base as [|b IH]; intros h h' post post' Hh Hp.
  - simpl. split; auto.
  - cbn [rewind_loop]. pose proof (Forall2_nth _ _ _ Hh b) as Hn.
    destruct (nth_error h b) as [f|], (nth_error h' b) as [g|]; try contradiction; [|simpl; auto].
    replace (f_ts g) with (f_ts f) by apply Hn. destruct (tle ts (f_ts f)); [|apply IH; auto].
    pose proof (Forall2_len _ _ _ Hh) as Hlen. pose proof (Forall2_removelast _ _ _ Hh) as Hrl.
    destruct Hh; [simpl; auto|]. rewrite pop_ok_fw, <- Hlen. destruct (pop_ok L2 _ _); [|simpl; auto].
    apply IH; auto. apply Forall2_app; auto.
Qed.

Lemma last_opt_fw h h' : Forall2 fst_rel h h' ->
  match last_opt h, last_opt h' with Some a, Some b => fst_rel a b | None, None => True | _, _ => False end.
Proof. intros Hh. unfold last_opt. rewrite <- (Forall2_len _ _ _ Hh). apply Forall2_nth; auto. Qed.

Definition rew_rel (a : bool * St E1 * list (FState E1)) (b : bool * St E2 * list (FState E2)) : Prop :=
  fst (fst a) = fst (fst b) /\ st_rel (snd (fst a)) (snd (fst b)) /\ Forall2 fst_rel (snd a) (snd b).

Lemma rewindHistory_fw s t ts : st_rel s t -> wrel allow rew_rel (rewindHistory L1 s ts) (rewindHistory L2 t ts).
Proof.
  intros Hst. pose proof Hst as (Hp & Hc & Hh & Hq & Hm). unfold rewindHistory.
  rewrite <- (core_ts _ _ Hc). destruct (tlt (f_ts (c_cur (core s))) ts).
  { simpl. repeat split; simpl; auto; apply Hc. }
  pose proof (Forall2_len _ _ _ Hh) as Hlen.
  assert (Hloop : wrel allow states_rel (rewind_loop L1 ts (length (hist s)) (hist s) [c_cur (core s)])
                                  (rewind_loop L2 ts (length (hist s)) (hist t) [c_cur (core t)])).
  { apply rewind_loop_fw; auto. constructor; auto. apply Hc. }
  rewrite <- Hlen. destruct (hist s) as [|f h] eqn:E1', (hist t) as [|g h'] eqn:E2'; inversion Hh; subst.
  - simpl. split; [|split]; simpl; auto.
  - replace (f_ts g) with (f_ts f) by (match goal with A : fst_rel f g |- _ => apply A end).
    destruct (tlt (f_ts f) ts); [|simpl; split; [|split]; simpl; auto].
    eapply wrel_bind; [exact Hloop|]. intros [h1 p1] [h2 p2] (A & B). simpl in A, B.
    pose proof (last_opt_fw _ _ A) as Hlast.
    destruct (last_opt h1) as [b1|], (last_opt h2) as [b2|]; try contradiction; [|simpl; auto].
    simpl. split; [|split]; simpl; auto; [|apply Forall2_rev'; auto].
    split; [|split; [|split; [|split]]]; simpl; auto; [|apply Forall2_removelast; auto].
    destruct Hc as (_ & Hr). split; auto.
Qed.

Lemma prune_loop_fw cut : forall base h h', Forall2 fst_rel h h' ->
  wrel allow (Forall2 fst_rel) (prune_loop L1 cut base h) (prune_loop L2 cut base h').
Proof.
  induction base as [|b IH]; intros h h' Hh.
  - simpl. auto.
  - cbn [prune_loop]. pose proof (Forall2_nth _ _ _ Hh b) as Hn.
    destruct (nth_error h b) as [f|], (nth_error h' b) as [g|]; try contradiction; [|simpl; auto].
    replace (f_ts g) with (f_ts f) by apply Hn. destruct (tlt (f_ts f) cut); [|simpl; auto].
    pose proof (Forall2_len _ _ _ Hh) as Hlen. pose proof (Forall2_removelast _ _ _ Hh) as Hrl.
    destruct Hh; [simpl; auto|]. rewrite pop_ok_fw, <- Hlen. destruct (pop_ok L2 _ _); [|simpl; auto].
    apply IH; auto.
Qed.

Lemma pruneHistory_fw s t : st_rel s t -> wrel allow st_rel (pruneHistory L1 s) (pruneHistory L2 t).
Proof.
  intros Hst. pose proof Hst as (Hp & Hc & Hh & Hq & Hm). unfold pruneHistory. rewrite <- Hp.
  destruct (negb (p_rewind (par s))); [simpl; auto|]. rewrite <- (core_ts _ _ Hc), <- (Forall2_len _ _ _ Hh).
  eapply wrel_bind; [apply prune_loop_fw; eauto|]. intros h h' Hhh. simpl.
  split; [|split; [|split; [|split]]]; simpl; auto.
Qed.

Lemma applyBatch_fw s t l l' : st_rel s t -> Forall2 inp_rel l l' ->
  wrel allow st_rel (applyBatchInputs L1 s l) (applyBatchInputs L2 t l').
Proof.
  intros Hst Hl. unfold applyBatchInputs. eapply wrel_bind.
  - eapply wrel_ofold; [|exact Hl|exact Hst]. intros; apply applyInput_fw; auto.
  - intros; apply pruneHistory_fw; auto.
Qed.

Lemma prevs_fw l l' : Forall2 fst_rel l l' -> Forall2 inp_rel (map f_prev l) (map f_prev l').
Proof. induction 1 as [|a b l l' Ha Hl IH]; simpl; constructor; auto. apply Ha. Qed.

Lemma apply_late_fw s t i j : st_rel s t -> inp_rel i j -> wrel allow st_rel (apply_late L1 s i) (apply_late L2 t j).
Proof.
  intros Hst Hi. unfold apply_late, getStateTime. pose proof Hst as (_ & Hc & _). pose proof Hi as (Ht & _).
  rewrite <- (core_ts _ _ Hc), <- Ht.
  eapply wrel_bind with (Q := rew_rel).
  - destruct (tlt _ _); [apply rewindHistory_fw; auto|]. simpl. split; [|split]; simpl; auto.
  - intros [[b1 s1] p1] [[b2 s2] p2] (A & B & C). simpl in A, B, C. subst b2.
    destruct (negb b1); [simpl; auto|]. apply applyBatch_fw; auto. constructor; auto. apply prevs_fw; auto.
Qed.

Lemma prune_queue_fw o q q' : Forall2 inp_rel q q' -> Forall2 inp_rel (prune_queue_loop o q) (prune_queue_loop o q').
Proof.
  induction 1 as [|a b l l' Ha Hl IH]; simpl; auto. replace (i_ts b) with (i_ts a) by apply Ha.
  destruct (tlt (i_ts a) o); auto.
Qed.
Lemma pruneQueue_fw s t q q' : st_rel s t -> Forall2 inp_rel q q' -> Forall2 inp_rel (pruneQueue s q) (pruneQueue t q').
Proof.
  intros (Hp & _ & Hh & _) Hq. unfold pruneQueue. rewrite <- Hp. destruct (p_rewind (par s)); auto.
  destruct Hh as [|a b h h' Ha Hh]; auto. replace (f_ts b) with (f_ts a) by apply Ha. apply prune_queue_fw; auto.
Qed.

Lemma std_sort_fw l l' : Forall2 inp_rel l l' -> wrel allow (Forall2 inp_rel) (std_sort L1 l) (std_sort L2 l').
Proof.
  intros Hl. unfold std_sort. rewrite <- (Forall2_map_eq inp_rel i_ts i_ts l l'); auto; [|intros a b Hab; apply Hab].
  destruct (swo_ok (map i_ts l)); simpl; auto.
  destruct HL as (_ & Hs). apply Hs; auto. intros a b Hab; apply Hab.
Qed.

Lemma processQueues_fw s t : st_rel s t -> wrel allow st_rel (processQueues L1 s) (processQueues L2 t).
Proof.
  intros Hst. pose proof Hst as (Hp & Hc & Hh & Hq & Hm). unfold processQueues. cbv zeta. cbn [par core hist cq mq].
  set (s0 := mkSt (par s) _ _ _ _). set (t0 := mkSt (par t) _ _ _ _).
  assert (H0 : st_rel s0 t0).
  { split; [|split; [|split; [|split]]]; simpl; auto; apply pruneQueue_fw; auto. }
  assert (Ho : map i_ts (pruneQueue s (cq s) ++ pruneQueue s (mq s)) = map i_ts (pruneQueue t (cq t) ++ pruneQueue t (mq t))).
  { apply (Forall2_map_eq inp_rel); [intros a b Hab; apply Hab|]. apply Forall2_app; apply pruneQueue_fw; auto. }
  rewrite <- Ho, <- Hp.
  eapply wrel_bind with (Q := fun a b => st_rel (fst a) (fst b) /\ Forall2 fst_rel (snd a) (snd b)).
  - destruct (p_rewind (par s)); [|simpl; auto].
    eapply wrel_bind; [apply rewindHistory_fw; eauto|].
    intros [[b1 s1] p1] [[b2 s2] p2] (A & B & C). simpl in *. auto.
  - intros [s1 p1] [s2 p2] (A & B). simpl in A, B. pose proof A as (_ & _ & _ & A3 & A4).
    eapply wrel_bind; [apply std_sort_fw; apply Forall2_app; [apply prevs_fw; eauto|apply Forall2_app; eauto]|].
    intros l l' Hl. eapply wrel_bind; [apply applyBatch_fw; eauto|].
    intros s3 t3 (B1 & B2 & B3 & B4 & B5). simpl. split; [|split; [|split; [|split]]]; simpl; auto.
Qed.

Lemma step_fw s t o1 o2 : st_rel s t -> op_rel o1 o2 -> wrel allow st_rel (step L1 s o1) (step L2 t o2).
Proof.
  intros Hst Ho. pose proof Hst as (Hp & Hc & Hh & Hq & Hm).
  assert (Hctl : forall u1 u2 ts, UR u1 u2 -> inp_rel (mkInput u1 (s_Rc (c_sys (core s))) ts true None) (mkInput u2 (s_Rc (c_sys (core t))) ts true None)).
  { intros u1 u2 ts Hu. split; [|split; [|split]]; simpl; auto. split; auto. right. apply (fw_Rc H). apply Hc. }
  assert (Hgo : forall i j, inp_rel i j ->
     wrel allow st_rel (let* s1 := applyInput s i in pruneHistory L1 s1) (let* s1 := applyInput t j in pruneHistory L2 s1)).
  { intros i j Hi. eapply wrel_bind; [apply applyInput_fw; eauto|]. intros; apply pruneHistory_fw; auto. }
  destruct o1, o2; simpl in Ho; try contradiction; cbn [step].
  - destruct Ho as (<- & Hx). unfold initialize. simpl. split; [|split; [|split; [|split]]]; simpl; auto.
    destruct Hc as ((_ & _ & Hi) & Hr). split; [|exact Hr]. split; [|split]; simpl; auto.
  - subst. unfold predict_t, getStateTime. rewrite <- (core_ts _ _ Hc). destruct (tlt _ _); [|simpl; auto].
    apply Hgo. apply Hctl. apply (fw_empty H).
  - destruct Ho as (<- & Hu). unfold predict_u, getStateTime. rewrite <- Hp, <- (core_ts _ _ Hc).
    destruct (negb _).
    + destruct (tle _ _); [|simpl; auto]. apply Hgo. auto.
    + apply apply_late_fw; auto.
  - destruct Ho as (<- & <- & Hz). unfold correct, getStateTime. rewrite <- Hp, <- (core_ts _ _ Hc).
    assert (Hi : inp_rel (mkInput z Q t0 false m) (mkInput z0 Q0 t0 false m)).
    { split; [|split; [|split]]; simpl; auto. }
    destruct (negb _).
    + destruct (_ || _); [|simpl; auto]. apply Hgo. auto.
    + apply apply_late_fw; auto.
  - destruct Ho as (<- & Hu). simpl. split; [|split; [|split; [|split]]]; simpl; auto. apply Forall2_app; auto.
  - destruct Ho as (<- & <- & Hz). simpl. split; [|split; [|split; [|split]]]; simpl; auto. apply Forall2_app; auto.
    constructor; auto. split; [|split; [|split]]; simpl; auto.
  - apply processQueues_fw; auto.
  - simpl. split; [|split; [|split; [|split]]]; simpl; auto.
  - simpl. split; [|split; [|split; [|split]]]; simpl; auto.
  - subst. unfold revertToState. eapply wrel_bind with (Q := fun a b => st_rel (fst a) (fst b)).
    + eapply wrel_bind; [apply rewindHistory_fw; eauto|]. intros [[b1 s1] p1] [[b2 s2] p2] (A & B & C). simpl in A, B, C. subst b2.
      destruct B as (B1 & B2 & B3 & B4 & B5).
      destruct b1; simpl; split; auto; simpl; split; auto; simpl; split; auto; simpl; auto.
    + intros [s1 b1] [s2 b2]; simpl; auto.
  - subst. simpl. split; [|split; [|split; [|split]]]; simpl; auto.
  - simpl. split; [|split; [|split; [|split]]]; simpl; auto.
    destruct Hc as (A & B & C & D & F). split; [|split; [|split; [|split]]]; simpl; auto.
  - simpl. split; [|split; [|split; [|split]]]; simpl; auto.
    destruct Hc as (A & B & C & D & F). split; [|split; [|split; [|split]]]; simpl; auto.
Qed.

Lemma run_fw ops1 ops2 s t : st_rel s t -> Forall2 op_rel ops1 ops2 -> wrel allow st_rel (run L1 ops1 s) (run L2 ops2 t).
Proof.
  intros Hst Ho. unfold run. eapply wrel_ofold; [|exact Ho|exact Hst]. intros; apply step_fw; auto.
Qed.

Lemma new_filter_fw sy1 sy2 ms1 ms2 x1 P1 x2 P2 t :
  SR sy1 sy2 -> meas_rel 0 ms1 ms2 -> XR x1 P1 x2 P2 ->
  st_rel (new_filter sy1 ms1 x1 P1 t) (new_filter sy2 ms2 x2 P2 t).
Proof.
  intros Hs Hm Hx. split; [|split; [|split; [|split]]]; simpl; auto.
  split; [|split; [|split; [|split]]]; simpl; auto; [|apply (fw_empty H)|left; apply (fw_empty0 H)].
  split; [|split]; simpl; auto. split; [|split; [|split]]; simpl; auto. split; [apply (fw_empty H)|left; apply (fw_empty0 H)].
Qed.

Theorem run_new_fw sy1 sy2 ms1 ms2 x1 P1 x2 P2 t ops1 ops2 :
  SR sy1 sy2 -> meas_rel 0 ms1 ms2 -> XR x1 P1 x2 P2 -> Forall2 op_rel ops1 ops2 ->
  wrel allow st_rel (run L1 ops1 (new_filter sy1 ms1 x1 P1 t)) (run L2 ops2 (new_filter sy2 ms2 x2 P2 t)).
Proof. intros Hs Hm Hx Ho. apply run_fw; auto. apply new_filter_fw; auto. Qed.
End Sim.
