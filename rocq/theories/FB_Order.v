(** Time-ordered histories: rewinding, and monotonicity of the estimate's time. *)
From Coq Require Import List Bool Arith Lia Sorted.
From Verif Require Import Outcome FB_Model FB_Time FB_Loops FB_Basic.
Import ListNotations.

Lemma StronglySorted_app_iff {A} (R : A -> A -> Prop) l1 l2 :
  StronglySorted R (l1 ++ l2) <->
  StronglySorted R l1 /\ StronglySorted R l2 /\ Forall (fun a => Forall (R a) l2) l1.
Proof.
  induction l1 as [|a l1 IH]; simpl.
  - split; [intros; repeat split; auto; constructor | intros (_ & ? & _); auto].
  - split.
    + intros Hs. inversion Hs as [|? ? Hs' Hf]; subst. apply IH in Hs' as (A1 & A2 & A3).
      apply Forall_app in Hf as (F1 & F2). repeat split; auto; constructor; auto.
    + intros (H1 & H2 & H3). inversion H1 as [|? ? H1' Hf]; subst. inversion H3; subst.
      constructor; [apply IH; auto | apply Forall_app; auto].
Qed.

Lemma StronglySorted_impl {A} (R R' : A -> A -> Prop) l :
  (forall a b, R a b -> R' a b) -> StronglySorted R l -> StronglySorted R' l.
Proof.
  intros Hi; induction 1 as [|a l Hs IH Hf]; constructor; auto.
  eapply Forall_impl; [|exact Hf]; auto.
Qed.

Lemma last_cons_default {A} (l : list A) : forall a d, last (a :: l) d = last l a.
Proof. induction l as [|b l IH]; intros a d; [reflexivity|]. transitivity (last (b :: l) d); [reflexivity|]. rewrite (IH b d), (IH b a). reflexivity. Qed.

Section Order.
Context {TT : TimeOps} {E : Env TT} (L : Lib E) (Hlib : lib_strict L = false).
Context {fin : TT -> Prop} (Hx : ExactTime TT fin).

Definition states (s : St E) : list (FState E) := hist s ++ [c_cur (core s)].

(** The retained states are in time order *)
Definition TimeSorted (l : list (FState E)) : Prop :=
  Forall (fun f => fin (f_ts f)) l /\
  StronglySorted (fun a b => tle (f_ts a) (f_ts b) = true) l.

Lemma TimeSorted_app l1 l2 : TimeSorted (l1 ++ l2) <->
  TimeSorted l1 /\ TimeSorted l2 /\
  (forall a b, In a l1 -> In b l2 -> tle (f_ts a) (f_ts b) = true).
Proof.
  clear Hx. unfold TimeSorted. rewrite Forall_app, StronglySorted_app_iff.
  setoid_rewrite Forall_forall. setoid_rewrite Forall_forall. firstorder.
Qed.

(** A sorted list splits at a timestamp *)
Lemma sorted_split ts l : fin ts -> TimeSorted l ->
  exists l1 l2, l = l1 ++ l2
    /\ Forall (fun f => tlt (f_ts f) ts = true) l1
    /\ Forall (fun f => tle ts (f_ts f) = true) l2
    /\ filter (at_or_after ts) l = l2.
Proof.
  intros Hts (Hfin & Hs). induction l as [|a l IH]; [exists [], []; auto|].
  inversion Hfin as [|? ? Fa Fl]; subst. inversion Hs as [|? ? Sl Sa]; subst.
  destruct (IH Fl Sl) as (l1 & l2 & -> & H1 & H2 & H3).
  change (filter (at_or_after ts) (a :: l1 ++ l2)) with
    (if tle ts (f_ts a) then a :: filter (at_or_after ts) (l1 ++ l2)
     else filter (at_or_after ts) (l1 ++ l2)).
  destruct (tle ts (f_ts a)) eqn:Ea.
  - destruct l1 as [|b l1].
    + exists [], (a :: l2). simpl. repeat split; auto. simpl in H3. rewrite H3. reflexivity.
    + exfalso. inversion H1; subst. inversion Sa; subst. inversion Fl; subst.
      assert (Hc : tle ts (f_ts b) = true) by (eapply (et_trans _ _ Hx ts (f_ts a)); eauto).
      rewrite (et_lt_not_le _ _ Hx (f_ts b) ts) in Hc; [discriminate|auto].
  - exists (a :: l1), l2. simpl. repeat split; auto. constructor; auto.
    apply (tlt_iff Hx); auto.
Qed.

Lemma rewind_sorted s ts : fin ts -> TimeSorted (states s) ->
  tlt ts (getStateTime s) = true \/ tle ts (getStateTime s) = true ->
  (exists front, nth_error (hist s) 0 = Some front /\ tlt (f_ts front) ts = true) ->
  exists h1 back post,
    hist s = h1 ++ back :: post
    /\ tlt (f_ts back) ts = true
    /\ Forall (fun f => tle ts (f_ts f) = true) post
    /\ rewindHistory L s ts =
       Ok (true, mkSt (par s) (set_cur (core s) back) h1 (cq s) (mq s), post ++ [c_cur (core s)]).
Proof.
  intros Hts Hsort Hle (front & Hf & Hlt).
  apply TimeSorted_app in Hsort as (Hsh & Hcur & _).
  assert (Fc : fin (f_ts (c_cur (core s)))) by (destruct Hcur as (Fc & _); inversion Fc; auto).
  rewrite rewindHistory_char; auto. 2:{ exact (et_lt_not_le _ _ Hx). }
  unfold rewind_result.
  assert (Hn : tlt (f_ts (c_cur (core s))) ts = false).
  { apply (tlt_false_iff Hx); auto. destruct Hle as [Hl|Hl]; auto.
    apply (tlt_le Hx) in Hl; auto. }
  rewrite Hn. destruct (sorted_split ts (hist s) Hts Hsh) as (l1 & l2 & Hl & H1 & H2 & H3).
  destruct (hist s) as [|f0 h] eqn:Eh; [discriminate|]. simpl in Hf. injection Hf as ->.
  rewrite Hlt, <- Eh in *. rewrite H3.
  assert (Hne : l1 <> []).
  { intros ->. simpl in Hl. rewrite <- Hl in H2. rewrite Eh in H2. inversion H2 as [|a b Ha Hb]; subst.
    rewrite (et_lt_not_le _ _ Hx _ _ Hlt) in Ha. discriminate. }
  destruct (exists_last Hne) as (h1 & back & ->).
  exists h1, back, l2. rewrite Eh in Hl |- *. rewrite Hl.
  rewrite app_length. replace (length (h1 ++ [back]) + length l2 - length l2) with (length (h1 ++ [back])) by lia.
  rewrite firstn_app, Nat.sub_diag, firstn_O, app_nil_r, firstn_all, last_last, removelast_app1.
  repeat split.
  - rewrite <- app_assoc. reflexivity.
  - apply Forall_app in H1 as (_ & H1). inversion H1; auto.
  - exact H2.
Qed.

(** Every retained state except the oldest was produced by its recorded input, whose timestamp
    is the state's time. *)
Definition Chain (s : St E) : Prop :=
  TimeSorted (states s) /\ Forall (fun f => i_ts (f_prev f) = f_ts f) (tl (states s)).

Lemma applyInput_chain s inp s' :
  p_rewind (par s) = true -> Chain s -> fin (i_ts inp) -> tle (getStateTime s) (i_ts inp) = true ->
  applyInput s inp = Ok s' ->
  Chain s' /\ hist s' = states s /\ getStateTime s' = i_ts inp /\ f_prev (c_cur (core s')) = inp
  /\ par s' = par s.
Proof.
  intros Hr (Hs & Hp) Hfi Hle Ha. apply applyInput_ok in Ha as (c & Hc & ->).
  rewrite Hr. apply input_core_time in Hc as (Ht & Hpr).
  assert (Fc : fin (f_ts (c_cur (core s)))).
  { destruct Hs as (Fs & _). apply Forall_app in Fs as (_ & Fs). inversion Fs; auto. }
  rewrite (time_after_ge Hx) in Ht; auto.
  unfold time_of in Ht. unfold getStateTime, states. simpl. repeat split; auto.
  - unfold states; simpl. rewrite Forall_app. split; [apply Hs|]. constructor; auto. rewrite Ht; auto.
  - unfold states; simpl. apply StronglySorted_app_iff. split; [apply Hs|]. split; [repeat constructor|].
    destruct Hs as (Fs & Ss). apply StronglySorted_app_iff in Ss as (S1 & S2 & S3).
    apply Forall_app in Fs as (Fh & _). rewrite Forall_forall in Fh, S3.
    apply Forall_forall. intros f Hin. constructor; [|constructor]. rewrite Ht.
    apply in_app_or in Hin as [Hin|Hin].
    + specialize (S3 f Hin). inversion S3; subst. eapply (et_trans _ _ Hx _ (f_ts (c_cur (core s)))); eauto.
    + destruct Hin as [<-|[]]. exact Hle.
  - unfold states in *; simpl. destruct (hist s ++ [c_cur (core s)]) as [|f0 l0] eqn:El.
    + destruct (hist s); discriminate.
    + simpl in *. apply Forall_app. split; auto. constructor; auto. rewrite Hpr, Ht. reflexivity.
Qed.

(** The last input of a non-empty batch determines the time *)
Lemma batch_chain l : forall s s',
  p_rewind (par s) = true -> Chain s ->
  Forall (fun i => fin (i_ts i)) l ->
  StronglySorted (fun a b => tle (i_ts a) (i_ts b) = true) l ->
  Forall (fun i => tle (getStateTime s) (i_ts i) = true) l ->
  ofold applyInput l s = Ok s' ->
  Chain s' /\ par s' = par s /\ getStateTime s' = last (map i_ts l) (getStateTime s)
  /\ map f_prev (states s') = map f_prev (states s) ++ l
  /\ exists t, states s' = states s ++ t.
Proof.
  induction l as [|i l IH]; intros s s' Hr Hc Hf Hs Hle Ho; cbn [ofold] in Ho.
  - injection Ho as <-. repeat split; auto; try apply Hc. rewrite app_nil_r; auto.
    exists []; rewrite app_nil_r; auto.
  - apply obind_ok in Ho as (s1 & H1 & H2).
    inversion Hf as [|? ? Hfi Hfl]; subst. inversion Hs as [|? ? Hsl Hsi]; subst.
    inversion Hle as [|? ? Hli Hll]; subst.
    apply applyInput_chain in H1 as (C1 & Hh1 & T1 & P1 & Pa1); auto.
    apply IH in H2 as (C2 & Pa2 & T2 & P2 & t & St2); auto; try congruence.
    + split; [exact C2|]. split; [congruence|]. split; [|split].
      * rewrite T2, T1. cbn [map]. rewrite last_cons_default. reflexivity.
      * rewrite P2. unfold states at 1. rewrite Hh1, map_app. cbn [map]. rewrite P1, <- app_assoc. reflexivity.
      * exists ([c_cur (core s1)] ++ t). rewrite St2. unfold states at 1. rewrite Hh1, <- app_assoc. reflexivity.
    + rewrite T1. auto.
Qed.

Lemma Chain_prune s s' : Chain s -> pruneHistory L s = Ok s' -> Chain s'.
Proof.
  intros (Hs & Hp) Hpr. apply pruneHistory_frame in Hpr as (_ & Hc & _ & _ & (d & Hd) & _).
  unfold Chain, states in *. rewrite Hc, Hd in *.
  apply TimeSorted_app in Hs as (Hs & H1 & H2). apply TimeSorted_app in Hs as (Hh & Hd' & Hhd).
  split.
  - apply TimeSorted_app. split; auto. split; auto. intros a b Ia Ib. apply H2; auto.
    apply in_or_app; auto.
  - destruct (hist s') as [|f h]; simpl in *; [constructor|].
    rewrite !Forall_app in *. tauto.
Qed.

(** The new filter after rewinding, and what is left of the order *)
Lemma Chain_rewind s h1 back post :
  Chain s -> hist s = h1 ++ back :: post ->
  let s1 := mkSt (par s) (set_cur (core s) back) h1 (cq s) (mq s) in
  Chain s1 /\ Forall (fun f => i_ts (f_prev f) = f_ts f) (post ++ [c_cur (core s)])
  /\ TimeSorted (post ++ [c_cur (core s)])
  /\ Forall (fun f => tle (f_ts back) (f_ts f) = true) (post ++ [c_cur (core s)]).
Proof.
  intros (Hs & Hp) Hh s1. unfold Chain, states, s1 in *. simpl. rewrite Hh in *.
  rewrite <- app_assoc in *. simpl in *.
  replace (h1 ++ back :: post ++ [c_cur (core s)]) with ((h1 ++ [back]) ++ post ++ [c_cur (core s)]) in *
    by (rewrite <- app_assoc; reflexivity).
  apply TimeSorted_app in Hs as (H1 & H2 & H3). repeat split; auto; try apply H1; try apply H2.
  - destruct h1; simpl in *; [constructor|]. rewrite !Forall_app in *. tauto.
  - destruct h1; simpl in *; [|rewrite !Forall_app in *]; try tauto.
  - apply Forall_forall. intros f Hin. apply H3; auto. apply in_or_app; right; simpl; auto.
Qed.

Lemma TimeSorted_inputs l : TimeSorted l -> Forall (fun f => i_ts (f_prev f) = f_ts f) l ->
  Forall (fun i => fin (i_ts i)) (map f_prev l)
  /\ StronglySorted (fun a b => tle (i_ts a) (i_ts b) = true) (map f_prev l).
Proof.
  intros (Hf & Hs) Hp. induction l as [|f l IH]; simpl; [split; constructor|].
  inversion Hf; subst. inversion Hs as [|? ? Sl Sa]; subst. inversion Hp as [|? ? Ep El]; subst.
  destruct IH as (A & B); auto. split; constructor; auto.
  - rewrite Ep; auto.
  - rewrite Forall_forall in *. intros i Hin. apply in_map_iff in Hin as (g & <- & Hg).
    rewrite Ep, (El g Hg). auto.
Qed.

Lemma last_map_f {A B} (f : A -> B) l a d : last (map f (l ++ [a])) d = f a.
Proof. rewrite map_app. simpl. apply last_last. Qed.

(** predict(u,t)/correct with rewinding on *)
Lemma apply_late_chain s inp s' :
  p_rewind (par s) = true -> Chain s -> fin (i_ts inp) -> apply_late L s inp = Ok s' ->
  Chain s' /\ par s' = par s
  /\ getStateTime s' = (if tlt (i_ts inp) (getStateTime s) then getStateTime s else i_ts inp).
Proof.
  intros Hr Hc Hfi Ha. unfold apply_late in Ha.
  assert (Fc : fin (getStateTime s)).
  { destruct Hc as ((Fs & _) & _). apply Forall_app in Fs as (_ & Fs). inversion Fs; auto. }
  destruct (tlt (i_ts inp) (getStateTime s)) eqn:Et.
  - (* late *)
    destruct (hist s) as [|front h] eqn:Eh.
    { unfold rewindHistory in Ha. unfold getStateTime in *.
      rewrite (tlt_asym Hx (i_ts inp) (f_ts (c_cur (core s))) Hfi Fc Et), Eh in Ha. simpl in Ha.
      injection Ha as <-. auto. }
    destruct (tlt (f_ts front) (i_ts inp)) eqn:Ef.
    + destruct (rewind_sorted s (i_ts inp)) as (h1 & back & post & Hh & Hb & Hpost & Hrw); auto.
      { apply Hc. }
      { rewrite Eh. simpl. eauto. }
      rewrite Hrw in Ha. cbn [obind negb] in Ha.
      apply applyBatchInputs_ok in Ha as (s2 & H2 & H3).
      destruct (Chain_rewind s h1 back post Hc Hh) as (C1 & Pp & Ps & Pb).
      destruct (TimeSorted_inputs _ Ps Pp) as (Fi & Si).
      pose proof Hc as Hc'. destruct Hc as (Hs & _).
      assert (Fb : fin (f_ts back)).
      { destruct C1 as ((Fs & _) & _). unfold states in Fs. simpl in Fs.
        apply Forall_app in Fs as (_ & Fs). inversion Fs; auto. }
      apply batch_chain in H2 as (C2 & Pa2 & T2 & _); auto; simpl.
      * pose proof (Chain_prune _ _ C2 H3) as C3.
        apply pruneHistory_frame in H3 as (Q1 & Q2 & _). split; auto. split; [simpl in Pa2; congruence|].
        unfold getStateTime in *. rewrite Q2, T2. simpl map.
        rewrite map_map, map_app. simpl map.
        rewrite app_comm_cons, last_last.
        rewrite Forall_app in Pp. destruct Pp as (_ & Pp). inversion Pp; auto.
      * constructor; auto. apply Forall_forall. intros i Hin. apply in_map_iff in Hin as (f & <- & Hin).
        rewrite Forall_forall in Pp. rewrite (Pp f Hin).
        apply in_app_or in Hin as [Hin|[<-|[]]].
        -- rewrite Forall_forall in Hpost; auto.
        -- apply (tlt_le Hx); auto.
      * unfold getStateTime; simpl. constructor; [apply (tlt_le Hx); auto|].
        apply Forall_forall. intros i Hin. apply in_map_iff in Hin as (f & <- & Hin).
        rewrite Forall_forall in Pp, Pb. rewrite (Pp f Hin). auto.
    + unfold rewindHistory in Ha. unfold getStateTime in *.
      rewrite (tlt_asym Hx (i_ts inp) (f_ts (c_cur (core s))) Hfi Fc Et), Eh, Ef in Ha. simpl in Ha.
      injection Ha as <-. auto.
  - (* on time *)
    cbn [obind negb] in Ha. simpl map in Ha.
    apply applyBatchInputs_ok in Ha as (s2 & H2 & H3).
    apply (tlt_false_iff Hx) in Et; auto.
    apply batch_chain in H2 as (C2 & Pa2 & T2 & _); auto; try solve [repeat constructor; auto].
    pose proof (Chain_prune _ _ C2 H3) as C3.
    apply pruneHistory_frame in H3 as (Q1 & Q2 & _). split; auto. split; [congruence|].
    unfold getStateTime in *. rewrite Q2, T2. reflexivity.
Qed.

Lemma pruned_input_chain s inp s' :
  p_rewind (par s) = true -> Chain s -> fin (i_ts inp) -> tle (getStateTime s) (i_ts inp) = true ->
  (let* s1 := applyInput s inp in pruneHistory L s1) = Ok s' ->
  Chain s' /\ par s' = par s /\ getStateTime s' = i_ts inp.
Proof.
  intros Hr Hc Hfi Hle Ha. apply obind_ok in Ha as (s1 & H1 & H2).
  apply applyInput_chain in H1 as (C1 & _ & T1 & _ & P1); auto.
  pose proof (Chain_prune _ _ C1 H2) as C2. apply pruneHistory_frame in H2 as (Q1 & Q2 & _).
  split; auto. split; [congruence|]. unfold getStateTime in *. rewrite Q2. exact T1.
Qed.

Lemma pruned_input_time s inp s' :
  (let* s1 := applyInput s inp in pruneHistory L s1) = Ok s' ->
  getStateTime s' = time_after inp (getStateTime s) /\ par s' = par s.
Proof.
  intros Ha. apply obind_ok in Ha as (s1 & H1 & H2).
  apply applyInput_ok in H1 as (c & Hc & ->). apply input_core_time in Hc as (Ht & _).
  apply pruneHistory_frame in H2 as (Q1 & Q2 & _). unfold getStateTime. rewrite Q2, Q1. auto.
Qed.

(** *** The call sequences of C05 *)
Inductive direct_op : Op (E := E) -> Prop :=
| direct_pt t : fin t -> direct_op (OpPredictT t)
| direct_pu u t : fin t -> direct_op (OpPredictU u t)
| direct_c z Q t m : fin t -> direct_op (OpCorrect z Q t m).

(** the states for which C05 holds: finite time, and an ordered history if rewinding is on *)
Definition TimeInv (s : St E) : Prop :=
  fin (getStateTime s) /\ (p_rewind (par s) = true -> Chain s).

Lemma direct_step s o s' : TimeInv s -> direct_op o -> step L s o = Ok s' ->
  TimeInv s' /\ par s' = par s /\ tle (getStateTime s) (getStateTime s') = true.
Proof.
  intros (Hf & Hc) Ho Hst.
  assert (Hrefl : tle (getStateTime s) (getStateTime s) = true) by (apply (et_refl _ _ Hx); auto).
  destruct (p_rewind (par s)) eqn:Er.
  - specialize (Hc eq_refl).
    assert (Hlate : forall inp, fin (i_ts inp) -> apply_late L s inp = Ok s' ->
      TimeInv s' /\ par s' = par s /\ tle (getStateTime s) (getStateTime s') = true).
    { intros inp Hi Ha. apply apply_late_chain in Ha as (C & P & Ht); auto. unfold TimeInv.
      rewrite Ht. destruct (tlt (i_ts inp) (getStateTime s)) eqn:Et; repeat split; auto; try apply C.
      apply (tlt_false_iff Hx); auto. }
    destruct Ho as [t Ht|u t Ht|z Q t m Ht]; cbn [step] in Hst.
    + unfold predict_t in Hst. destruct (tlt (getStateTime s) t) eqn:Et.
      * apply pruned_input_chain in Hst as (C & P & Hti); auto.
        -- simpl in Hti. unfold TimeInv. rewrite Hti. repeat split; auto; try apply C.
           apply (tlt_le Hx); auto.
        -- simpl. apply (tlt_le Hx); auto.
      * injection Hst as <-. split; [split; auto|auto].
    + unfold predict_u in Hst. rewrite Er in Hst. simpl in Hst. eapply Hlate; [|exact Hst]. auto.
    + unfold correct in Hst. rewrite Er in Hst. simpl in Hst. eapply Hlate; [|exact Hst]. auto.
  - assert (Hgo : forall inp, fin (i_ts inp) ->
      i_ctl inp = false \/ tle (getStateTime s) (i_ts inp) = true ->
      (let* s1 := applyInput s inp in pruneHistory L s1) = Ok s' ->
      TimeInv s' /\ par s' = par s /\ tle (getStateTime s) (getStateTime s') = true).
    { intros inp Hi Hor Ha. apply pruned_input_time in Ha as (Ht & Hp).
      rewrite (time_after_exact Hx) in Ht; auto. unfold TimeInv. rewrite Hp, Er, Ht.
      destruct (i_ctl inp); [destruct Hor as [Hor|Hor]; [discriminate|]|].
      - repeat split; auto; discriminate.
      - destruct (tlt (getStateTime s) (i_ts inp)) eqn:Et; repeat split; auto; try discriminate.
        apply (tlt_le Hx); auto. }
    destruct Ho as [t Ht|u t Ht|z Q t m Ht]; cbn [step] in Hst.
    + unfold predict_t in Hst. destruct (tlt (getStateTime s) t) eqn:Et.
      * eapply Hgo; [| |exact Hst]; simpl; auto. right. apply (tlt_le Hx); auto.
      * injection Hst as <-. split; [split; auto; congruence|auto].
    + unfold predict_u in Hst. rewrite Er in Hst. simpl in Hst.
      destruct (tle (getStateTime s) t) eqn:Et.
      * eapply Hgo; [| |exact Hst]; simpl; auto.
      * injection Hst as <-. split; [split; auto; congruence|auto].
    + unfold correct in Hst. rewrite Er in Hst. simpl in Hst.
      destruct (p_past (par s) || tle tzero (tsub t (getStateTime s))).
      * eapply Hgo; [| |exact Hst]; simpl; auto.
      * injection Hst as <-. split; [split; auto; congruence|auto].
Qed.

Lemma direct_run ops : forall s s', TimeInv s -> Forall direct_op ops -> run L ops s = Ok s' ->
  TimeInv s' /\ par s' = par s /\ tle (getStateTime s) (getStateTime s') = true.
Proof.
  induction ops as [|o ops IH]; intros s s' Hi Ho Hr; unfold run in Hr; cbn [ofold] in Hr.
  - injection Hr as <-. split; auto. split; auto. apply (et_refl _ _ Hx), Hi.
  - apply obind_ok in Hr as (s1 & H1 & H2). inversion Ho; subst.
    pose proof (proj1 Hi) as F.
    apply direct_step in H1 as (I1 & P1 & L1); auto. apply IH in H2 as (I2 & P2 & L2); auto.
    split; auto. split; [congruence|].
    apply (et_trans _ _ Hx _ (getStateTime s1)); auto; [apply I1|apply I2].
Qed.

(** a filter just initialised satisfies it, with any parameters *)
Lemma TimeInv_init s x P t : fin t -> TimeInv (initialize s x P t).
Proof.
  intros Ht. split; [exact Ht|]. intros _. split; [split|].
  - repeat constructor. exact Ht.
  - repeat constructor.
  - constructor.
Qed.
End Order.
