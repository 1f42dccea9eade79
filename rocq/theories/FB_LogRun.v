(** Any sequence of direct and queued inputs, in any order of arrival, equals processing the
    inputs in time order (C09, C10, C11 positive part, C19). *)
From Coq Require Import List Bool Arith Lia Sorted Permutation.
From Verif Require Import Outcome FB_Model FB_Time FB_Loops FB_Basic FB_Order FB_Replay FB_Spec.
Import ListNotations.

Lemma StronglySorted_perm_unique {A} (R : A -> A -> Prop) (Hirr : forall a b, R a b -> R b a -> False) :
  forall l1 l2, StronglySorted R l1 -> StronglySorted R l2 -> Permutation l1 l2 -> l1 = l2.
Proof.
  induction l1 as [|a l1 IH]; intros l2 H1 H2 Hp.
  - apply Permutation_nil in Hp. auto.
  - destruct l2 as [|b l2]; [apply Permutation_sym, Permutation_nil in Hp; discriminate|].
    inversion H1 as [|? ? S1 F1]; subst. inversion H2 as [|? ? S2 F2]; subst.
    assert (a = b).
    { assert (Ia : In a (b :: l2)) by (eapply Permutation_in; [exact Hp|left; auto]).
      assert (Ib : In b (a :: l1)) by (eapply Permutation_in; [apply Permutation_sym; exact Hp|left; auto]).
      destruct Ia as [->|Ia]; auto. destruct Ib as [->|Ib]; auto.
      rewrite Forall_forall in F1, F2. exfalso. eapply Hirr; eauto. }
    subst b. f_equal. apply IH; auto. apply Permutation_cons_inv in Hp. auto.
Qed.

Lemma NoDup_app_intro {A} (l1 l2 : list A) : NoDup l1 -> NoDup l2 ->
  (forall a, In a l1 -> In a l2 -> False) -> NoDup (l1 ++ l2).
Proof.
  induction 1 as [|a l1 Hn Hd IH]; intros H2 Hi; simpl; auto. constructor.
  - intros Hin. apply in_app_or in Hin as [?|?]; [auto|]. apply (Hi a); simpl; auto.
  - apply IH; auto. intros b Hb. apply Hi. simpl; auto.
Qed.

Lemma NoDup_app_r {A} (l1 l2 : list A) : NoDup (l1 ++ l2) -> NoDup l2.
Proof. induction l1 as [|a l1 IH]; simpl; intros H; auto. inversion H; subst; auto. Qed.

Lemma filter_perm {A} (f : A -> bool) l1 l2 : Permutation l1 l2 -> Permutation (filter f l1) (filter f l2).
Proof.
  induction 1; simpl; auto.
  - destruct (f x); auto.
  - destruct (f x), (f y); auto. apply perm_swap.
  - eapply Permutation_trans; eauto.
Qed.
Lemma filter_all {A} (f : A -> bool) l : Forall (fun a => f a = true) l -> filter f l = l.
Proof. induction 1 as [|a l Ha Hl IH]; simpl; auto. rewrite Ha, IH. reflexivity. Qed.
Lemma filter_none {A} (f : A -> bool) l : Forall (fun a => f a = false) l -> filter f l = [].
Proof. induction 1 as [|a l Ha Hl IH]; simpl; auto. rewrite Ha. exact IH. Qed.

Section LogRun.
Context {TT : TimeOps} {E : Env TT} (L : Lib E) (Hlib : lib_strict L = false) (Hsort : SortOk L).
Context {fin : TT -> Prop} (Hx : ExactTime TT fin).
Context (sy0 : Sys E) (ms0 : list (Meas E)) (SL : Sys E -> Prop) (ML : nat -> Meas E -> Prop).
Context (HM : Memoryless E sy0 ms0 SL ML).
Context (c0 : Core E) (Hc0 : sim sy0 ms0 SL ML c0 c0) (w : TT).
Notation R0 := (s_Rc sy0).
Notation t0 := (time_of c0).
Context (Ht0 : fin t0) (Hw : fin w) (Hw0 : tle (tsub t0 w) t0 = true).
Notation Rep := (Rep sy0 ms0 SL ML c0).
Notation LogOk := (LogOk (fin := fin) sy0 t0 w).
Notation new_input := (new_input (fin := fin) sy0 c0 w).
Notation inp_ok := (inp_ok sy0).

Lemma prune_queue_id o q : Forall (fun i : FInput E => tlt (i_ts i) o = false) q -> prune_queue_loop o q = q.
Proof. induction 1 as [|i q Hi Hq IH]; simpl; auto. rewrite Hi, IH. reflexivity. Qed.

Lemma ge_strict l : Forall (fun i => fin (i_ts i)) l -> NoDup (map i_ts l) ->
  StronglySorted (fun a b : FInput E => tlt (i_ts b) (i_ts a) = false) l ->
  StronglySorted (fun a b : FInput E => tlt (i_ts a) (i_ts b) = true) l.
Proof.
  intros Hf Hn Hs. induction Hs as [|a l Hs IH Ha]; constructor; inversion Hf; subst; inversion Hn; subst; auto.
  rewrite Forall_forall in *. intros b Hb. specialize (Ha b Hb).
  apply (tlt_false_iff Hx) in Ha; auto.
  destruct (tle_lt_or_eq Hx (i_ts a) (i_ts b)) as [|Heq]; auto.
  exfalso. match goal with H : ~ In (i_ts a) _ |- _ => apply H end. rewrite Heq. apply in_map; auto.
Qed.

Lemma LogOk_nodup log : LogOk log -> NoDup (map i_ts log).
Proof.
  intros Hl. pose proof (LogOk_fin sy0 c0 w log Hl) as Hf. destruct Hl as (Hs & _).
  induction Hs as [|a l Hs IH Ha]; simpl; constructor; inversion Hf; subst; auto.
  intros Hin. apply in_map_iff in Hin as (b & Eb & Hb). rewrite Forall_forall in Ha.
  specialize (Ha b Hb). rewrite Eb, (tlt_irrefl Hx) in Ha; auto. discriminate.
Qed.

(** everything about the waiting inputs *)
Definition queue_ok (log q : list (FInput E)) : Prop :=
  Forall (fun i => new_input i log) q /\ NoDup (map i_ts q).

Definition batch_late_ok (log q : list (FInput E)) : Prop :=
  forall i, In i q -> (forall j, In j q -> tle (i_ts i) (i_ts j) = true) -> late_ok log i.

Lemma processQueues_Rep s log s' :
  Rep s log -> LogOk log -> p_window (par s) = w ->
  queue_ok log (cq s ++ mq s) -> batch_late_ok log (cq s ++ mq s) ->
  processQueues L s = Ok s' ->
  exists log', Permutation log' (log ++ cq s ++ mq s) /\ Rep s' log' /\ LogOk log'
    /\ par s' = par s /\ cq s' = [] /\ mq s' = [].
Proof.
  intros HR Hl Hwin (Hq & Hqn) Hb Hp. pose proof HR as (Hr & _).
  destruct (Rep_times Hx sy0 ms0 SL ML c0 w Ht0 s log HR Hl) as (f0 & fs & Hst & Hf0 & Htimes & Hnow & _ & _).
  pose proof (now_fin Hx sy0 ms0 SL ML c0 w Ht0 s log HR Hl) as Fn.
  assert (Hpq : forall q, incl q (cq s ++ mq s) -> pruneQueue s q = q).
  { intros q Hin. unfold pruneQueue. rewrite Hr. destruct (hist s) as [|fr h] eqn:Eh; auto.
    unfold states in Hst. rewrite Eh in Hst. simpl in Hst. injection Hst as -> _.
    apply prune_queue_id. rewrite Forall_forall in *. intros i Hi. rewrite Hf0.
    destruct (Hq i (Hin i Hi)) as (A & B & _). apply (tlt_asym Hx); auto. }
  unfold processQueues in Hp. rewrite !Hpq in Hp by (intros i Hi; apply in_or_app; auto).
  destruct s as [pa co hi cqs mqs]; simpl in *. rewrite Hr in Hp.
  remember (cqs ++ mqs) as q eqn:Eq.
  assert (Fq : Forall fin (map i_ts q)).
  { apply Forall_map. eapply Forall_impl; [|exact Hq]. intros i (A & _). exact A. }
  assert (Hgo : forall s1 l1 l2 post,
     log = l1 ++ l2 -> par s1 = pa -> cq s1 = cqs -> mq s1 = mqs ->
     map f_prev post = l2 ->
     Forall (fun i => Forall (fun j => tlt (i_ts i) (i_ts j) = true) (l2 ++ q)) l1 ->
     (exists f0 fs km, states s1 = f0 :: fs /\ est_f f0 = est_c c0 /\ Scan c0 l1 fs km
       /\ sim0 ms0 SL ML (core s1) km /\ sim sy0 ms0 SL ML km km /\
       (forall merged, Permutation merged (l2 ++ q) ->
         StronglySorted (fun a b : FInput E => tlt (i_ts a) (i_ts b) = true) merged ->
         match merged with i :: _ => real_control i \/ sim sy0 ms0 SL ML (core s1) km
                         | [] => sim sy0 ms0 SL ML (core s1) km end)) ->
     (let* inputs := std_sort L (map f_prev post ++ cq s1 ++ mq s1) in
      let* s2 := applyBatchInputs L s1 inputs in
      Ok (clearMeasurementQueue (clearControlQueue s2))) = Ok s' ->
     exists log', Permutation log' (log ++ q) /\ Rep s' log' /\ LogOk log'
        /\ par s' = pa /\ cq s' = [] /\ mq s' = []).
  { clear Hp. intros s1 l1 l2 post Hlog Hpar Hcq Hmq Hpost Hbef (g0 & gs & km & E1 & E2 & E3 & E4 & E5 & E6) Hp.
    rewrite Hpost, Hcq, Hmq, <- Eq in Hp.
    assert (F2 : Forall (fun i => fin (i_ts i)) (l2 ++ q)).
    { apply Forall_app. split.
      - apply (LogOk_fin sy0 c0 w) in Hl. rewrite Hlog in Hl. apply Forall_app in Hl. tauto.
      - eapply Forall_impl; [|exact Hq]. intros i (A & _). exact A. }
    assert (Hswo : swo_ok (map i_ts (l2 ++ q)) = true).
    { apply (swo_ok_fin Hx). apply Forall_map. exact F2. }
    destruct (Hsort (l2 ++ q) Hswo) as (Hperm & Hss).
    unfold std_sort in Hp. rewrite Hswo in Hp. cbn [obind] in Hp.
    remember (lib_sort L (l2 ++ q)) as merged eqn:Em.
    assert (Nd : NoDup (map i_ts (l2 ++ q))).
    { rewrite map_app. apply NoDup_app_intro.
      - pose proof (LogOk_nodup log Hl) as Hn. rewrite Hlog, map_app in Hn. apply NoDup_app_r in Hn. exact Hn.
      - exact Hqn.
      - intros t Ht1 Ht2. apply in_map_iff in Ht2 as (i & <- & Hi). rewrite Forall_forall in Hq.
        destruct (Hq i Hi) as (_ & _ & _ & _ & Hni). apply Hni. rewrite Hlog, map_app. apply in_or_app; auto. }
    assert (Hstrict : StronglySorted (fun a b : FInput E => tlt (i_ts a) (i_ts b) = true) merged).
    { apply ge_strict; auto.
      - eapply Permutation_Forall; [apply Permutation_sym; exact Hperm|exact F2].
      - eapply Permutation_NoDup; [apply Permutation_map, Permutation_sym; exact Hperm|exact Nd]. }
    apply obind_ok in Hp as (s2 & H2 & H3). injection H3 as <-.
    assert (HLo : LogOk (l1 ++ merged)).
    { pose proof Hl as (A & B & C). rewrite Hlog in A, B, C.
      apply StronglySorted_app_iff in A as (A1 & A2 & _).
      apply Forall_app in B as (B1 & B2). apply Forall_app in C as (C1 & C2).
      split; [|split].
      - apply StronglySorted_app_iff. split; auto. split; auto.
        eapply Forall_impl; [|exact Hbef]. intros i Hi.
        eapply Permutation_Forall; [apply Permutation_sym; exact Hperm|exact Hi].
      - apply Forall_app. split; auto.
        eapply Permutation_Forall; [apply Permutation_sym; exact Hperm|]. apply Forall_app; split; auto.
        eapply Forall_impl; [|exact Hq]. intros i (N1 & N2 & N3 & _). auto.
      - apply Forall_app. split; auto.
        eapply Permutation_Forall; [apply Permutation_sym; exact Hperm|]. apply Forall_app; split; auto.
        eapply Forall_impl; [|exact Hq]. intros i (N1 & N2 & N3 & N4 & _). auto. }
    destruct (Rep_merge L Hlib Hx sy0 ms0 SL ML HM c0 w Ht0 Hw s1 s1 (l1 ++ merged) l1 merged s2)
      as (R1 & R2 & R3 & R4); auto; try congruence.
    { exists g0, gs, km. do 5 (split; [assumption|]). apply E6; auto. }
    exists (l1 ++ merged). split.
    { rewrite Hlog, <- app_assoc. apply Permutation_app_head. exact Hperm. }
    split.
    { destruct R1 as (Q1 & Q2). split; [exact Q1|]. exact Q2. }
    split; [exact HLo|]. simpl. repeat split. congruence. }
  (* the rewind *)
  destruct q as [|i0 q0] eqn:Eq0.
  - (* nothing waiting *)
    simpl fold_left in Hp. unfold rewindHistory in Hp.
    change (f_ts (c_cur co)) with (getStateTime (mkSt pa co hi cqs mqs)) in Hp.
    simpl core in Hp.
    assert (Hinf : tlt (f_ts (c_cur co)) tinf = true) by (apply (et_inf _ _ Hx); exact Fn).
    rewrite Hinf in Hp. cbn [obind] in Hp.
    destruct HR as (_ & g0 & gs & kn & E1 & E2 & E3 & E4).
    eapply (Hgo (mkSt pa co hi cqs mqs) log [] []); simpl; auto.
    + rewrite app_nil_r; auto.
    + apply Forall_forall. intros i _. constructor.
    + exists g0, gs, kn. do 3 (split; [assumption|]). split; [apply E4|]. split; [eapply sim_refl; eauto|].
      intros merged _ _. destruct merged; auto.
  - rewrite <- Eq0 in *. assert (Hne : map i_ts q <> []) by (rewrite Eq0; discriminate).
    destruct (fold_tmin_inf Hx (map i_ts q) Fq Hne) as (Hin & Hmin).
    remember (fold_left tmin (map i_ts q) tinf) as o eqn:Eo.
    apply in_map_iff in Hin as (io & Eio & Hio).
    assert (Hnew : new_input io log) by (rewrite Forall_forall in Hq; auto).
    pose proof Hnew as (N1 & N2 & N3 & N4 & N5). rewrite Eio in N1, N2, N3, N5.
    assert (Hmin' : forall j, In j q -> tle o (i_ts j) = true).
    { intros j Hj. rewrite Forall_forall in Hmin. apply Hmin. apply in_map; auto. }
    destruct (tlt (getStateTime (mkSt pa co hi cqs mqs)) o) eqn:Et.
    + unfold rewindHistory in Hp. unfold getStateTime in Et. simpl in Et. simpl core in Hp. rewrite Et in Hp.
      cbn [obind] in Hp.
      pose proof (all_before Hx sy0 ms0 SL ML c0 w Ht0 _ log o HR Hl N1 N2 Et) as Hbef.
      pose proof (LogOk_fin sy0 c0 w log Hl) as Hfl.
      destruct HR as (_ & g0 & gs & kn & E1 & E2 & E3 & E4).
      eapply (Hgo (mkSt pa co hi cqs mqs) log [] []); simpl; auto.
      * rewrite app_nil_r; auto.
      * rewrite Forall_forall in *. intros i Hi. apply Forall_forall. intros j Hj.
        apply (tlt_le_trans Hx _ o); auto. apply Fq. apply in_map; auto.
      * exists g0, gs, kn. do 3 (split; [assumption|]). split; [apply E4|]. split; [eapply sim_refl; eauto|].
        intros merged _ _. destruct merged; auto.
    + apply (tlt_false_iff Hx) in Et; auto.
      destruct (Rep_rewind L Hlib Hx sy0 ms0 SL ML HM c0 Hc0 w Ht0 (mkSt pa co hi cqs mqs) log o N1 N2 HR Hl Et)
        as (l1 & l2 & s1 & post & Hlog & A1 & A2 & Hrw & Hpost & Hpar & Hq1 & Hq2 & Hex).
      rewrite Hrw in Hp. cbn [obind] in Hp.
      destruct Hex as (g0 & gs & km & E1 & E2 & E3 & E4 & E5 & E6).
      pose proof (LogOk_fin sy0 c0 w log Hl) as Hfl. rewrite Hlog in Hfl. apply Forall_app in Hfl as (F1 & F2).
      assert (B2 : Forall (fun i => tlt o (i_ts i) = true) l2).
      { rewrite <- Eio. apply (not_in_lt Hx); rewrite ?Eio; auto. intros Hin. apply N5. rewrite Hlog, map_app. apply in_or_app; auto. }
      eapply (Hgo s1 l1 l2 post); auto.
      * rewrite Forall_forall in *. intros i Hi. apply Forall_forall. intros j Hj.
        apply in_app_or in Hj as [Hj|Hj].
        -- apply (tlt_trans Hx _ o); auto.
        -- apply (tlt_le_trans Hx _ o); auto. apply Fq. apply in_map; auto.
      * exists g0, gs, km. do 5 (split; [assumption|]). intros merged Hperm Hss.
        destruct merged as [|i1 m1].
        { exfalso. apply Permutation_nil in Hperm. rewrite Eq0 in Hperm. destruct l2; discriminate. }
        (* i1 has the oldest timestamp, hence is io's *)
        assert (Hi1 : i1 = io).
        { assert (Hiom : In io (i1 :: m1)).
          { eapply Permutation_in; [apply Permutation_sym; exact Hperm|]. apply in_or_app; auto. }
          destruct Hiom as [->|Hiom]; auto. exfalso.
          assert (Hall : Forall (fun b : FInput E => tlt (i_ts i1) (i_ts b) = true) m1) by (inversion Hss; auto).
          rewrite Forall_forall in Hall. specialize (Hall io Hiom).
          assert (Hi1 : In i1 (l2 ++ q)).
          { eapply Permutation_in; [exact Hperm|left; auto]. }
          apply in_app_or in Hi1 as [Hi1|Hi1].
          - rewrite Forall_forall in B2. pose proof (B2 i1 Hi1) as Hc. rewrite Forall_forall in F2.
            rewrite <- Eio in Hc. rewrite (tlt_asym Hx (i_ts io) (i_ts i1)) in Hall; auto; [discriminate|].
            rewrite Eio. auto.
          - pose proof (Hmin' i1 Hi1) as Hc. rewrite <- Eio in Hc.
            rewrite (et_lt_not_le _ _ Hx _ _ Hall) in Hc. discriminate. }
        subst i1. destruct (Hb io Hio) as [Hrc|Hlate].
        { intros j Hj. rewrite Eio. auto. }
        { left; auto. }
        { right. apply E6. rewrite Hlog in Hlate. apply Forall_app in Hlate as (_ & Hlate).
          rewrite Forall_forall in *. intros i Hi Hrc. specialize (Hlate i Hi Hrc). specialize (B2 i Hi).
          rewrite Eio in Hlate. rewrite (tlt_asym Hx (i_ts i) o) in B2; auto. discriminate. }
Qed.

(** *** One call *)
Definition RunInv (s : St E) (d : Delivered (E := E)) (log : list (FInput E)) : Prop :=
  Rep s log /\ LogOk log /\ p_window (par s) = w /\ Permutation log (processed d) /\
  Permutation (cq s ++ mq s) (waiting d) /\
  Forall (fun i => i_ctl i = true) (cq s) /\ Forall (fun i => i_ctl i = false) (mq s).

(** timestamps seen and to come are distinct and inside the window *)
Definition ts_ok (t : TT) : Prop := fin t /\ tlt t0 t = true /\ tle (tsub t w) t0 = true.
Definition TsInv (d : Delivered (E := E)) (future : list TT) : Prop :=
  NoDup (map i_ts (processed d ++ waiting d) ++ future) /\
  Forall ts_ok (map i_ts (processed d ++ waiting d) ++ future) /\
  Forall inp_ok (processed d ++ waiting d).

Lemma Rep_Rc s log : Rep s log -> s_Rc (c_sys (core s)) = R0.
Proof.
  intros (_ & f0 & fs & kn & _ & _ & _ & Hs). destruct Hs as ((_ & (Hs & _) & _) & _).
  apply (ml_Rc _ _ _ _ _ HM). exact Hs.
Qed.

Lemma Forall_perm {A} (P : A -> Prop) l1 l2 : Permutation l1 l2 -> Forall P l1 -> Forall P l2.
Proof. intros; eapply Permutation_Forall; eauto. Qed.

(** an input that is merged directly *)
Lemma merge_one s d log inp s' rest :
  RunInv s d log -> TsInv d (i_ts inp :: rest) -> inp_ok inp -> mergeable inp (processed d) ->
  apply_late L s inp = Ok s' ->
  exists log', RunInv s' (mkDel (processed d ++ [inp]) (waiting d)) log'.
Proof.
  intros (HR & Hl & Hwin & Hpp & Hpw & Hc & Hm) (Hnd & Hts & Hio) Hok Hmg Ha.
  assert (Hnew : new_input inp log).
  { assert (Ht : ts_ok (i_ts inp)).
    { rewrite Forall_forall in Hts. apply Hts. apply in_or_app. right. left. reflexivity. }
    destruct Ht as (A & B & C). repeat split; auto; try (apply Hok; auto).
    intros Hin. apply NoDup_remove_2 in Hnd. apply Hnd. apply in_or_app. left.
    rewrite map_app. apply in_or_app. left.
    eapply Permutation_in; [apply Permutation_map; exact Hpp|exact Hin]. }
  assert (Hlate : late_ok log inp).
  { destruct Hmg as [Hmg|Hmg]; [left; exact Hmg|right]. unfold newer_than_controls in Hmg.
    eapply Forall_perm; [apply Permutation_sym; exact Hpp|]. exact Hmg. }
  destruct (apply_late_Rep L Hlib Hx sy0 ms0 SL ML HM c0 Hc0 w Ht0 Hw s log inp s' HR Hl Hwin Hw0 Hnew Hlate Ha)
    as (log' & (l1 & l2 & E1 & E2 & _) & R1 & R2 & R3 & R4 & R5).
  exists log'. split; [exact R1|]. split; [exact R2|]. split; [congruence|].
  split; [|rewrite R4, R5; auto].
  simpl. rewrite E2. rewrite E1 in Hpp. eapply Permutation_trans; [apply Permutation_sym, Permutation_middle|].
  eapply Permutation_trans; [apply perm_skip; exact Hpp|]. apply Permutation_cons_append.
Qed.

Lemma run_step s d log o rest s' :
  RunInv s d log -> TsInv d (op_ts o ++ rest) -> allowed R0 d o -> step L s o = Ok s' ->
  exists log', RunInv s' (deliver R0 d o) log'.
Proof.
  intros HI HT Hal Hs. pose proof HI as (HR & Hl & Hwin & Hpp & Hpw & Hc & Hm).
  pose proof HR as (Hr & _).
  destruct o; simpl in Hal; try contradiction; simpl in Hs.
  - (* predict(t) *)
    unfold predict_t in Hs. rewrite (Rep_Rc _ _ HR) in Hs.
    assert (Hlt : tlt (getStateTime s) t = true).
    { destruct (Rep_times Hx sy0 ms0 SL ML c0 w Ht0 s log HR Hl) as (f0 & fs & _ & _ & _ & Hnow & _).
      assert (Ht : ts_ok t).
      { destruct HT as (_ & Hts & _). rewrite Forall_forall in Hts. apply Hts.
        apply in_or_app. right. left. reflexivity. }
      rewrite Hnow. destruct (last_in_or (map i_ts log) t0) as [->|Hin]; [apply Ht|].
      apply in_map_iff in Hin as (i & <- & Hi). rewrite Forall_forall in Hal. apply Hal.
      eapply Permutation_in; eauto. }
    rewrite Hlt in Hs.
    apply (merge_one s d log (ctl_input R0 vempty t) s' rest); auto.
    + split; reflexivity.
    + right. eapply Forall_impl; [|exact Hal]. intros i Hi _. exact Hi.
    + unfold apply_late. simpl.
      assert (Ft : fin t).
      { destruct HT as (_ & Hts & _). rewrite Forall_forall in Hts. apply Hts.
        apply in_or_app. right. left. reflexivity. }
      rewrite (tlt_asym Hx (getStateTime s) t); auto.
      * cbn [obind negb map]. unfold applyBatchInputs. cbn [ofold].
        apply obind_ok in Hs as (s1 & H1 & H2). unfold ctl_input. rewrite H1. cbn [obind]. exact H2.
      * apply (now_fin Hx sy0 ms0 SL ML c0 w Ht0 s log); auto.
  - (* predict(u, t) *)
    unfold predict_u in Hs. rewrite Hr, (Rep_Rc _ _ HR) in Hs. simpl in Hs.
    apply (merge_one s d log (ctl_input R0 u t) s' rest); auto. split; reflexivity.
  - (* correct *)
    unfold correct in Hs. rewrite Hr in Hs. simpl in Hs.
    apply (merge_one s d log (meas_input z Q t m) s' rest); auto. intros Habs; discriminate.
  - (* enqueueControl *)
    injection Hs as <-. exists log. unfold enqueueControl. rewrite (Rep_Rc _ _ HR).
    split; [exact HR|]. split; [exact Hl|]. split; [exact Hwin|]. split; [exact Hpp|]. simpl.
    split; [|split; [apply Forall_app; auto|auto]].
    rewrite <- app_assoc. simpl. eapply Permutation_trans; [apply Permutation_sym, Permutation_middle|].
    eapply Permutation_trans; [apply perm_skip; exact Hpw|]. apply Permutation_cons_append.
  - (* enqueueMeasurement *)
    injection Hs as <-. exists log.
    split; [exact HR|]. split; [exact Hl|]. split; [exact Hwin|]. split; [exact Hpp|]. simpl.
    split; [|split; [auto|apply Forall_app; auto]].
    rewrite app_assoc. apply Permutation_app; auto.
  - (* processQueues *)
    destruct HT as (Hnd & Hts & Hio). simpl in Hnd, Hts. 
    assert (Hq : queue_ok log (cq s ++ mq s)).
    { split.
      - eapply Forall_perm; [apply Permutation_sym; exact Hpw|]. apply Forall_forall. intros i Hi.
        assert (Ht : ts_ok (i_ts i)).
        { rewrite Forall_forall in Hts. apply Hts. apply in_or_app. left. apply in_map.
          apply in_or_app; auto. }
        destruct Ht as (A & B & C). split; [exact A|]. split; [exact B|]. split; [exact C|]. split.
        + rewrite Forall_forall in Hio. apply Hio. apply in_or_app; auto.
        + intros Hin. assert (Hin' : In (i_ts i) (map i_ts (processed d))).
          { eapply Permutation_in; [apply Permutation_map; exact Hpp|exact Hin]. }
          rewrite map_app, <- app_assoc in Hnd. clear -Hnd Hin' Hi.
          induction (map i_ts (processed d)) as [|a l IH]; [destruct Hin'|].
          simpl in Hnd. inversion Hnd as [|? ? N1 N2]; subst. destruct Hin' as [->|Hin']; auto.
          apply N1. apply in_or_app. right. apply in_or_app. left. apply in_map. auto.
      - eapply Permutation_NoDup; [apply Permutation_map, Permutation_sym; exact Hpw|].
        rewrite map_app, <- app_assoc in Hnd. apply NoDup_app_r in Hnd.
        clear -Hnd. induction (map i_ts (waiting d)) as [|a l IH]; [constructor|].
        simpl in Hnd. inversion Hnd as [|? ? N1 N2]; subst. constructor; auto.
        intros Hin. apply N1. apply in_or_app; auto. }
    assert (Hb : batch_late_ok log (cq s ++ mq s)).
    { intros i Hi Hmin. destruct (Hal i) as [Hc'|Hc'].
      - eapply Permutation_in; eauto.
      - intros j Hj. apply Hmin. eapply Permutation_in; [apply Permutation_sym; exact Hpw|exact Hj].
      - left; exact Hc'.
      - right. unfold newer_than_controls in Hc'. eapply Forall_perm; [apply Permutation_sym; exact Hpp|exact Hc']. }
    destruct (processQueues_Rep s log s' HR Hl Hwin Hq Hb Hs) as (log' & P1 & P2 & P3 & P4 & P5 & P6).
    exists log'. split; [exact P2|]. split; [exact P3|]. split; [congruence|]. simpl.
    rewrite P5, P6. split; [|split; [constructor|auto]].
    eapply Permutation_trans; [exact P1|]. apply Permutation_app; auto.
  - (* clearControlQueue *)
    injection Hs as <-. exists log. split; [exact HR|]. split; [exact Hl|]. split; [exact Hwin|]. split; [exact Hpp|].
    simpl. split; [|auto].
    eapply Permutation_trans; [|apply filter_perm; exact Hpw].
    rewrite filter_app, filter_none, filter_all; auto.
    + eapply Forall_impl; [|exact Hm]. intros i ->. reflexivity.
    + eapply Forall_impl; [|exact Hc]. intros i ->. reflexivity.
  - (* clearMeasurementQueue *)
    injection Hs as <-. exists log. split; [exact HR|]. split; [exact Hl|]. split; [exact Hwin|]. split; [exact Hpp|].
    simpl. split; [|auto].
    eapply Permutation_trans; [|apply filter_perm; exact Hpw].
    rewrite filter_app, (filter_none i_ctl (mq s)), (filter_all i_ctl (cq s)); auto.
Qed.

Lemma TsInv_step d o rest : TsInv d (op_ts o ++ rest) -> allowed R0 d o -> TsInv (deliver R0 d o) rest.
Proof.
  intros (Hn & Ht & Hi) Hal.
  assert (Hadd : forall i, op_ts o = [i_ts i] -> inp_ok i ->
     forall l, Permutation l (i :: processed d ++ waiting d) ->
      NoDup (map i_ts l ++ rest) /\ Forall ts_ok (map i_ts l ++ rest) /\ Forall inp_ok l).
  { intros i Ei Hoki l Hp. rewrite Ei in *.
    assert (Hpt : Permutation (map i_ts (processed d ++ waiting d) ++ [i_ts i] ++ rest) (map i_ts l ++ rest)).
    { eapply Permutation_trans; [apply Permutation_sym, Permutation_middle|].
      simpl. rewrite app_comm_cons. apply Permutation_app_tail.
      change (i_ts i :: map i_ts (processed d ++ waiting d)) with (map i_ts (i :: processed d ++ waiting d)).
      apply Permutation_map, Permutation_sym. exact Hp. }
    split; [eapply Permutation_NoDup; eauto|]. split; [eapply Forall_perm; eauto|].
    eapply Forall_perm; [apply Permutation_sym; exact Hp|]. constructor; auto. }
  assert (Hflt : forall f, op_ts o = [] ->
     TsInv (mkDel (processed d) (filter f (waiting d))) rest).
  { intros f Ef. rewrite Ef in *. unfold TsInv in *. simpl in *. rewrite !map_app, <- !app_assoc in *.
    assert (Hincl : forall P, Forall P (waiting d) -> Forall P (filter f (waiting d))).
    { intros P HP. rewrite Forall_forall in *. intros i Hin. apply filter_In in Hin. apply HP. tauto. }
    split; [|split].
    - clear -Hn. induction (map i_ts (processed d)) as [|a l IH]; simpl in *.
      + induction (waiting d) as [|b q IH]; simpl in *; auto. inversion Hn as [|? ? N1 N2]; subst.
        destruct (f b); simpl; auto. constructor; auto. intros Hin. apply N1.
        apply in_app_or in Hin as [Hin|Hin]; apply in_or_app; auto. left.
        apply in_map_iff in Hin as (c & <- & Hc). apply filter_In in Hc. apply in_map; tauto.
      + inversion Hn as [|? ? N1 N2]; subst. constructor; auto. intros Hin. apply N1.
        apply in_app_or in Hin as [Hin|Hin]; apply in_or_app; auto. right.
        apply in_app_or in Hin as [Hin|Hin]; apply in_or_app; auto. left.
        apply in_map_iff in Hin as (c & <- & Hc). apply filter_In in Hc. apply in_map; tauto.
    - apply Forall_app in Ht as (Ht1 & Ht2). apply Forall_app in Ht2 as (Ht2 & Ht3).
      apply Forall_app. split; auto. apply Forall_app. split; auto.
      apply Forall_map. apply Hincl. rewrite Forall_forall in *. intros i Hin. apply Ht2, in_map, Hin.
    - apply Forall_app in Hi as (Hi1 & Hi2). apply Forall_app; auto. }
  destruct o; simpl in Hal; try contradiction; simpl deliver.
  - apply (Hadd (ctl_input R0 vempty t)); [reflexivity|split; reflexivity|]. simpl.
    rewrite <- app_assoc. apply Permutation_sym, Permutation_middle.
  - apply (Hadd (ctl_input R0 u t)); [reflexivity|split; reflexivity|]. simpl.
    rewrite <- app_assoc. apply Permutation_sym, Permutation_middle.
  - apply (Hadd (meas_input z Q t m)); [reflexivity|intros Ha; discriminate|]. simpl.
    rewrite <- app_assoc. apply Permutation_sym, Permutation_middle.
  - apply (Hadd (ctl_input R0 u t)); [reflexivity|split; reflexivity|]. simpl.
    rewrite app_assoc. apply Permutation_sym, Permutation_cons_append.
  - apply (Hadd (meas_input z Q t m)); [reflexivity|intros Ha; discriminate|]. simpl.
    rewrite app_assoc. apply Permutation_sym, Permutation_cons_append.
  - unfold TsInv. simpl. rewrite app_nil_r. split; [exact Hn|]. split; [exact Ht|exact Hi].
  - apply Hflt; reflexivity.
  - apply Hflt; reflexivity.
Qed.

Lemma run_inv ops : forall s d log s',
  RunInv s d log -> TsInv d (timestamps ops) -> all_allowed R0 d ops -> run L ops s = Ok s' ->
  exists log', RunInv s' (fold_left (deliver R0) ops d) log' /\
    Forall inp_ok (processed (fold_left (deliver R0) ops d)).
Proof.
  induction ops as [|o ops IH]; intros s d log s' HI HT Ha Hr.
  - simpl in Hr. injection Hr as <-. exists log. split; auto. destruct HT as (_ & _ & Hi).
    apply Forall_app in Hi. simpl. tauto.
  - destruct Ha as (Ha1 & Ha2). unfold run in Hr. cbn [ofold] in Hr. apply obind_ok in Hr as (s1 & H1 & H2).
    unfold timestamps in HT. cbn [flat_map] in HT.
    destruct (run_step s d log o _ s1 HI HT Ha1 H1) as (log1 & HI1).
    apply (IH s1 (deliver R0 d o) log1 s'); auto. eapply TsInv_step; eauto.
Qed.

(** The reference run: direct calls in time order. *)
Lemma ordered_run l2 : forall s l1,
  Rep s l1 -> LogOk (l1 ++ l2) -> p_window (par s) = w ->
  (exists kn, ofold input_core (l1 ++ l2) c0 = Ok kn) ->
  exists s', run L (map call_of l2) s = Ok s' /\ Rep s' (l1 ++ l2) /\ par s' = par s.
Proof.
  induction l2 as [|i l2 IH]; intros s l1 HR Hl Hwin (kn & Hk).
  - exists s. rewrite app_nil_r. split; [reflexivity|]. split; [exact HR|reflexivity].
  - assert (Hl1 : LogOk (l1 ++ [i])).
    { destruct Hl as (A & B & C). change (i :: l2) with ([i] ++ l2) in *. rewrite app_assoc in A, B, C.
      apply StronglySorted_app_iff in A as (A1 & _). apply Forall_app in B as (B1 & _).
      apply Forall_app in C as (C1 & _). split; auto. }
    assert (Hl0 : LogOk l1).
    { destruct Hl as (A & B & C). 
      apply StronglySorted_app_iff in A as (A1 & _). apply Forall_app in B as (B1 & _).
      apply Forall_app in C as (C1 & _). split; auto. }
    assert (Hbef : Forall (fun j => tlt (i_ts j) (i_ts i) = true) l1).
    { destruct Hl as (A & _). apply StronglySorted_app_iff in A as (_ & _ & A3).
      eapply Forall_impl; [|exact A3]. intros j Hj. inversion Hj; auto. }
    assert (Hti : fin (i_ts i) /\ tlt t0 (i_ts i) = true /\ inp_ok i).
    { destruct Hl1 as (_ & B & C). apply Forall_app in B as (_ & B). apply Forall_app in C as (_ & C).
      inversion B; inversion C; subst. tauto. }
    destruct Hti as (Fi & Li & Oi).
    pose proof (now_fin Hx sy0 ms0 SL ML c0 w Ht0 s l1 HR Hl0) as Fn.
    assert (Hlt : tlt (getStateTime s) (i_ts i) = true).
    { destruct (Rep_times Hx sy0 ms0 SL ML c0 w Ht0 s l1 HR Hl0) as (f0 & fs & _ & _ & _ & Hnow & _).
      rewrite Hnow. destruct (last_in_or (map i_ts l1) t0) as [->|Hin]; auto.
      apply in_map_iff in Hin as (j & <- & Hj). rewrite Forall_forall in Hbef. auto. }
    assert (Hstep : step L s (call_of i) = apply_late L s i).
    { pose proof HR as (Hr & _). unfold call_of. destruct (i_ctl i) eqn:Ec; simpl.
      - unfold predict_u. rewrite Hr, (Rep_Rc _ _ HR). simpl. destruct (Oi Ec) as (<- & Em).
        rewrite <- Em, <- Ec. destruct i; reflexivity.
      - unfold correct. rewrite Hr. simpl. rewrite <- Ec. destruct i; reflexivity. }
    assert (Happ : apply_late L s i = applyBatchInputs L s [i]).
    { unfold apply_late. rewrite (tlt_asym Hx _ _ Fn Fi Hlt). reflexivity. }
    (* it succeeds *)
    assert (Hok : exists s1, applyBatchInputs L s [i] = Ok s1).
    { pose proof HR as (Hr & f0 & fs & km & Hst & He & Hsc & Hsim).
      apply Scan_ofold in Hsc. rewrite ofold_app, Hsc in Hk. cbn [obind ofold] in Hk.
      apply obind_ok in Hk as (k1 & Hk1 & _).
      assert (Hb : exists s1, ofold applyInput [i] s = Ok s1).
      { eapply (batch_ok sy0 ms0 SL ML HM [i] s km k1); eauto.
        cbn [ofold]. rewrite Hk1. reflexivity. }
      destruct Hb as (s1 & Hb). unfold applyBatchInputs. rewrite Hb. cbn [obind].
      rewrite pruneHistory_char; auto. destruct (p_rewind (par s1)); eauto. }
    destruct Hok as (s1 & Hok).
    destruct (apply_late_Rep L Hlib Hx sy0 ms0 SL ML HM c0 Hc0 w Ht0 Hw s l1 i s1 HR Hl0 Hwin Hw0)
      as (log' & (m1 & m2 & E1 & E2 & M1 & M2) & R1 & R2 & R3 & R4 & R5).
    { destruct Hl1 as (A & B & C). apply Forall_app in B as (_ & B). inversion B as [|? ? (B1 & B2 & B3) _]; subst.
      repeat split; auto; try (apply Oi; auto). intros Hin. apply in_map_iff in Hin as (j & Ej & Hj).
      rewrite Forall_forall in Hbef. specialize (Hbef j Hj). rewrite Ej, (tlt_irrefl Hx) in Hbef; auto. discriminate. }
    { right. eapply Forall_impl; [|exact Hbef]. intros j Hj _. exact Hj. }
    { rewrite Happ. exact Hok. }
    assert (m2 = []).
    { destruct m2 as [|j m2]; auto. exfalso.
      assert (Hij : tlt (i_ts i) (i_ts j) = true) by (inversion M2; auto).
      assert (Hj : In j l1) by (rewrite E1; apply in_or_app; right; left; auto).
      assert (Fj : fin (i_ts j)).
      { apply (LogOk_fin sy0 c0 w) in Hl0. rewrite Forall_forall in Hl0. auto. }
      rewrite Forall_forall in Hbef. specialize (Hbef j Hj).
      rewrite (tlt_asym Hx (i_ts i) (i_ts j)) in Hbef; auto. discriminate. }
    subst m2. rewrite app_nil_r in E1. rewrite <- E1 in E2. rewrite E2 in *. clear E1 E2 M1.
    destruct (IH s1 (l1 ++ [i])) as (s' & Q1 & Q2 & Q3); auto.
    + rewrite <- app_assoc. exact Hl.
    + congruence.
    + exists kn. rewrite <- app_assoc. exact Hk.
    + exists s'. rewrite <- app_assoc in Q2. split; [|split; [exact Q2|congruence]].
      unfold run. cbn [map ofold]. rewrite Hstep, Happ, Hok. exact Q1.
Qed.

Theorem out_of_order_equals_in_order s0 ops s l :
  core s0 = c0 -> hist s0 = [] -> cq s0 = [] -> mq s0 = [] ->
  p_rewind (par s0) = true -> p_window (par s0) = w ->
  all_allowed R0 (mkDel [] []) ops ->
  NoDup (timestamps ops) -> Forall ts_ok (timestamps ops) ->
  run L ops s0 = Ok s ->
  Permutation l (processed (delivered R0 ops)) -> in_time_order l ->
  exists s', run L (map call_of l) s0 = Ok s' /\ est s' = est s.
Proof.
  intros Ec Eh Eq1 Eq2 Hr Hwin Hal Hnd Hts Hrun Hp Hs.
  assert (HR0 : Rep s0 []).
  { split; [exact Hr|]. exists (c_cur c0), [], c0. unfold states. rewrite Eh, Ec.
    split; [reflexivity|]. split; [reflexivity|]. split; [constructor|exact Hc0]. }
  destruct (run_inv ops s0 (mkDel [] []) [] s) as (log & HI & Hok); auto.
  - split; [exact HR0|]. split; [split; [constructor|split; constructor]|]. split; [exact Hwin|].
    split; [constructor|]. simpl. rewrite Eq1, Eq2. repeat split; constructor.
  - split; [exact Hnd|]. split; [exact Hts|constructor].
  - destruct HI as (HR & Hl & _ & Hpp & _). fold (delivered R0 ops) in Hpp.
    assert (El : log = l).
    { pose proof (LogOk_fin sy0 c0 w log Hl) as Hf. destruct Hl as (A & _).
      assert (Hperm : Permutation log l) by (eapply Permutation_trans; [exact Hpp|apply Permutation_sym; exact Hp]).
      assert (Hfl : Forall (fun i => fin (i_ts i)) l) by (eapply Forall_perm; eauto).
      revert Hperm A Hf Hs Hfl. clear -Hx. intros Hperm A Hf Hs Hfl.
      (* irreflexivity needs finiteness, so restrict the relation *)
      eapply (StronglySorted_perm_unique (fun a b : FInput E => fin (i_ts a) /\ fin (i_ts b) /\ tlt (i_ts a) (i_ts b) = true)).
      - intros a b (Fa & Fb & H1) (_ & _ & H2). rewrite (tlt_asym Hx _ _ Fa Fb H1) in H2. discriminate.
      - clear -A Hf. induction A as [|a l0 A IH Ha]; constructor; inversion Hf; subst; auto.
        rewrite Forall_forall in *. auto.
      - clear -Hs Hfl. unfold in_time_order in Hs. induction Hs as [|a l0 A IH Ha]; constructor; inversion Hfl; subst; auto.
        rewrite Forall_forall in *. auto.
      - exact Hperm. }
    subst l. destruct (ordered_run log s0 []) as (s' & Q1 & Q2 & Q3); auto.
    + pose proof HR as (_ & f0 & fs & kn & _ & _ & Hsc & _). exists kn. eapply Scan_ofold. exact Hsc.
    + exists s'. split; [exact Q1|]. simpl in Q2.
      destruct HR as (_ & f0 & fs & kn & _ & _ & Hsc & Hsim).
      destruct Q2 as (_ & f0' & fs' & kn' & _ & _ & Hsc' & Hsim').
      apply Scan_ofold in Hsc, Hsc'. rewrite Hsc in Hsc'. injection Hsc' as <-.
      destruct Hsim as ((He & _) & _). destruct Hsim' as ((He' & _) & _).
      change (est_c (core s') = est_c (core s)). congruence.
Qed.
End LogRun.
