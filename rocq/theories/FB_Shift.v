(** Two runs of the same calls whose timestamps differ but keep their order and their differences: the
    filters stay in step.  [TR] relates the timestamps of the two runs. *)
From Coq Require Import List Bool Arith Lia.
From Verif Require Import Outcome FB_Model FB_Time FB_Sim FB_Spec.
Import ListNotations.

Section Shift.
Context {TT : TimeOps} {E : Env TT}.

(** std::sort (filter_base.hpp:201-204) as an algorithm that looks at its elements only through the
    comparator: on two ranges that compare alike it makes the same moves *)
Definition sort_by_comparisons (L : Lib E) : Prop :=
  forall Q : FInput E -> FInput E -> Prop,
  (forall i j i' j', Q i i' -> Q j j' -> tlt (i_ts i) (i_ts j) = tlt (i_ts i') (i_ts j')) ->
  forall l l', Forall2 Q l l' -> Forall2 Q (lib_sort L l) (lib_sort L l').

Context (TR : TT -> TT -> Prop) (W : TT -> Prop).
Record TimeShift : Prop := {
  sh_lt : forall a b a' b', TR a a' -> TR b b' -> tlt a b = tlt a' b';
  sh_le : forall a b a' b', TR a a' -> TR b b' -> tle a b = tle a' b';
  sh_inf : forall a a', TR a a' -> tlt a tinf = true /\ tlt a' tinf = true;
  sh_sub : forall a b a' b', TR a a' -> TR b b' -> tsub a b = tsub a' b';
  sh_add : forall a b a' b', TR a a' -> TR b b' -> TR (tadd a (tsub b a)) (tadd a' (tsub b' a'));
  sh_win : forall a b w a' b', TR a a' -> TR b b' -> W w -> tlt a (tsub b w) = tlt a' (tsub b' w);
  sh_not_le : forall a b : TT, tlt a b = true -> tle b a = false;
  sh_one : W tone
}.

Definition inp_sh (i j : FInput E) : Prop :=
  i_data i = i_data j /\ i_cov i = i_cov j /\ TR (i_ts i) (i_ts j) /\ i_ctl i = i_ctl j /\ i_model i = i_model j.
(** related states; the input that produced them is not compared *)
Definition est_sh (f g : FState E) : Prop := f_x f = f_x g /\ f_cov f = f_cov g /\ TR (f_ts f) (f_ts g).
Definition fst_sh (f g : FState E) : Prop := est_sh f g /\ inp_sh (f_prev f) (f_prev g).
Definition rest_sh (c d : Core E) : Prop :=
  c_pc c = c_pc d /\ c_pcc c = c_pcc d /\ c_sys c = c_sys d /\ c_meas c = c_meas d.
(** states recorded after the first one; the input that produced the first one is never looked at *)
Definition list_sh (l l' : list (FState E)) : Prop :=
  match l, l' with
  | [], [] => True
  | f :: l, g :: l' => est_sh f g /\ Forall2 fst_sh l l'
  | _, _ => False
  end.
Definition par_ok (p : Params TT) : Prop := W (p_window p).
Definition st_sh (s t : St E) : Prop :=
  par s = par t /\ par_ok (par s) /\ rest_sh (core s) (core t) /\
  list_sh (hist s ++ [c_cur (core s)]) (hist t ++ [c_cur (core t)]) /\
  Forall2 inp_sh (cq s) (cq t) /\ Forall2 inp_sh (mq s) (mq t).

(** the same call at another time *)
Definition op_sh (o o' : Op (E := E)) : Prop :=
  match o, o' with
  | OpInit x P t, OpInit x' P' t' => x = x' /\ P = P' /\ TR t t'
  | OpPredictT t, OpPredictT t' => TR t t'
  | OpPredictU u t, OpPredictU u' t' => u = u' /\ TR t t'
  | OpCorrect z Q t m, OpCorrect z' Q' t' m' => z = z' /\ Q = Q' /\ TR t t' /\ m = m'
  | OpEnqC u t, OpEnqC u' t' => u = u' /\ TR t t'
  | OpEnqM z Q t m, OpEnqM z' Q' t' m' => z = z' /\ Q = Q' /\ TR t t' /\ m = m'
  | OpProcess, OpProcess | OpClearC, OpClearC | OpClearM, OpClearM => True
  | OpRevert t, OpRevert t' => TR t t'
  | OpParams p, OpParams p' => p = p' /\ W (p_window p)
  | OpSys f, OpSys f' => f = f'
  | OpMeas f, OpMeas f' => f = f'
  | _, _ => False
  end.

Context (H : TimeShift) (L : Lib E) (HL : sort_by_comparisons L).

Definition core_sh (c d : Core E) : Prop := est_sh (c_cur c) (c_cur d) /\ rest_sh c d.

Lemma fst_est f g : fst_sh f g -> est_sh f g.
Proof. intros [A _]; exact A. Qed.
Lemma list_sh_strong l l' : Forall2 fst_sh l l' -> list_sh l l'.
Proof. destruct 1; simpl; auto. split; auto. apply fst_est; auto. Qed.
Lemma list_sh_snoc l l' f g : list_sh l l' -> fst_sh f g -> list_sh (l ++ [f]) (l' ++ [g]).
Proof.
  destruct l as [|a l], l' as [|b l']; simpl; try contradiction; intros Hl Hf.
  - split; auto. apply fst_est; auto.
  - destruct Hl as (A & B). split; auto. apply Forall2_app; auto.
Qed.
Lemma list_sh_est l l' : list_sh l l' -> Forall2 est_sh l l'.
Proof.
  destruct l as [|a l], l' as [|b l']; simpl; try contradiction; auto. intros (A & B). constructor; auto.
  induction B as [|x y l l' Hx Hl IH]; constructor; auto. apply fst_est; auto.
Qed.
Lemma list_sh_len l l' : list_sh l l' -> length l = length l'.
Proof. intros Hl. apply (Forall2_len est_sh), list_sh_est, Hl. Qed.
Lemma Forall2_snoc_inv {A B} (Q : A -> B -> Prop) l l' a b : Forall2 Q (l ++ [a]) (l' ++ [b]) -> Forall2 Q l l' /\ Q a b.
Proof.
  intros Hq. pose proof (Forall2_rev' _ _ _ Hq) as Hr. rewrite !rev_app_distr in Hr. simpl in Hr.
  inversion Hr as [|x y r r' Hxy Hrr]; subst. split; auto.
  apply Forall2_rev' in Hrr. rewrite !rev_involutive in Hrr. exact Hrr.
Qed.
(** splitting the last state off *)
Lemma list_sh_last l l' f g : list_sh (l ++ [f]) (l' ++ [g]) ->
  list_sh l l' /\ est_sh f g /\ (l <> [] -> fst_sh f g).
Proof.
  intros Hl. pose proof (list_sh_len _ _ Hl) as Hlen. rewrite !app_length in Hlen. simpl in Hlen.
  destruct l as [|a l], l' as [|b l']; simpl in Hl, Hlen; try lia.
  - destruct Hl as (A & _). split; [simpl; auto|]. split; auto. intros C; contradiction C; auto.
  - destruct Hl as (A & B). apply Forall2_snoc_inv in B as (B & C). split; [simpl; auto|]. split; auto. apply fst_est; auto.
Qed.
Lemma list_sh_prefix l r l' r' : length l = length l' -> list_sh (l ++ r) (l' ++ r') -> list_sh l l'.
Proof.
  revert l r l' r'. intros [|a l] r [|b l'] r' Hlen; simpl in *; try lia; auto.
  intros (A & B). split; auto. clear A. injection Hlen as Hlen. revert l' Hlen B.
  induction l as [|c l IH]; intros [|d l'] Hlen B; simpl in *; try lia; auto.
  inversion B; subst. constructor; auto.
Qed.

Lemma applyControlInput_sh c d i j : core_sh c d -> inp_sh i j ->
  orel (fun c' d' => core_sh c' d' /\ f_ts (c_cur c') = f_ts (c_cur c) /\ f_ts (c_cur d') = f_ts (c_cur d)) (applyControlInput c i) (applyControlInput d j).
Proof.
  intros ((Hx & HP & Ht) & Hpc & Hpcc & Hs & Hm) (Id & Ic & It & _).
  unfold applyControlInput, choose_control. rewrite (sh_sub H _ _ _ _ It Ht), <- Id, <- Ic, <- Hpc, <- Hpcc, <- Hs.
  destruct (0 <? vsize (i_data i)); [|destruct (0 <? vsize (c_pc c))]; simpl; rewrite <- Hx, <- HP, <- Hs;
    (match goal with |- context [control_update ?a ?b ?c ?d ?e ?f ?g] => destruct (control_update a b c d e f g) as [[[sy x] P]|] end; simpl; auto;
     repeat split; auto).
Qed.

Lemma set_ts_sh c d t t' : core_sh c d -> TR t t' -> core_sh (set_ts c t) (set_ts d t').
Proof. intros ((Hx & HP & _) & Hr) Ht. split; [|exact Hr]. split; [|split]; auto. Qed.
Lemma core_sh_ts c d : core_sh c d -> TR (f_ts (c_cur c)) (f_ts (c_cur d)).
Proof. intros ((_ & _ & Ht) & _). exact Ht. Qed.

Lemma advance_sh c d i j : core_sh c d -> inp_sh i j ->
  orel core_sh (advance_if_needed c i (tsub (i_ts i) (f_ts (c_cur c)))) (advance_if_needed d j (tsub (i_ts j) (f_ts (c_cur d)))).
Proof.
  intros Hc Hi. pose proof Hi as (_ & _ & It & _). pose proof (core_sh_ts _ _ Hc) as Ht.
  unfold advance_if_needed. rewrite <- (sh_sub H _ _ _ _ It Ht). destruct (tlt tzero _); [|simpl; auto].
  eapply orel_bind.
  - apply applyControlInput_sh; [exact Hc|]. destruct Hc as (_ & Hpc & Hpcc & _). repeat split; simpl; auto.
  - intros c1 d1 (H1 & -> & ->). simpl. apply set_ts_sh; auto.
    rewrite (sh_sub H _ _ _ _ It Ht) at 2. apply (sh_add H); auto.
Qed.

Lemma applyMeasurementInput_sh c d i j : core_sh c d -> inp_sh i j ->
  orel core_sh (applyMeasurementInput c i) (applyMeasurementInput d j).
Proof.
  intros Hc Hi. pose proof Hi as (Id & Ic & It & _ & Im). pose proof (core_sh_ts _ _ Hc) as Ht.
  unfold applyMeasurementInput. eapply orel_bind; [apply advance_sh; eauto|].
  intros c1 d1 ((Hx & HP & Ht1) & Hpc & Hpcc & Hs & Hm). rewrite <- Im, <- Hm, <- Id, <- Ic, <- Hx, <- HP, <- Hs, <- (sh_sub H _ _ _ _ It Ht).
  destruct (i_model i) as [k|]; [|simpl; auto]. destruct (nth_error (c_meas c1) k) as [m|]; [|simpl; auto].
  destruct (meas_update _ _ _ _ _ _ _) as [[[[sy m'] x] P]|]; simpl; auto.
  repeat split; simpl; auto.
Qed.

Lemma input_core_sh c d i j : core_sh c d -> inp_sh i j ->
  orel (fun c' d' => core_sh c' d' /\ fst_sh (c_cur c') (c_cur d')) (input_core c i) (input_core d j).
Proof.
  intros Hc Hi. pose proof Hi as (_ & _ & It & Ict & _). pose proof (core_sh_ts _ _ Hc) as Ht.
  unfold input_core. eapply orel_bind with (Q := core_sh).
  - rewrite <- Ict. destruct (i_ctl i).
    + eapply orel_bind; [apply applyControlInput_sh; eauto|]. intros c1 d1 (H1 & -> & ->). simpl.
      apply set_ts_sh; auto. apply (sh_add H); auto.
    + apply applyMeasurementInput_sh; auto.
  - intros c1 d1 ((Hx & HP & Ht1) & Hr). simpl. split; [split; [split; [|split]|exact Hr]|split; [split; [|split]|]]; simpl; auto.
Qed.

Lemma st_core s t : st_sh s t -> core_sh (core s) (core t).
Proof. intros (_ & _ & Hr & Hl & _). split; auto. apply list_sh_last in Hl as (_ & Hl & _). exact Hl. Qed.
Lemma st_hist s t : st_sh s t -> list_sh (hist s) (hist t).
Proof. intros (_ & _ & Hr & Hl & _). apply list_sh_last in Hl. apply Hl. Qed.
Lemma st_ts s t : st_sh s t -> TR (getStateTime s) (getStateTime t).
Proof. intros Hs. apply core_sh_ts, st_core, Hs. Qed.

Lemma applyInput_sh s t i j : st_sh s t -> inp_sh i j -> orel st_sh (applyInput s i) (applyInput t j).
Proof.
  intros Hst Hi. unfold applyInput. eapply orel_bind; [apply input_core_sh; [apply st_core|]; eauto|].
  intros c d (Hc & Hf). simpl. pose proof Hst as (Hp & Hw & _ & Hl & Hq & Hm).
  split; [|split; [|split; [|split; [|split]]]]; simpl; auto; [apply Hc|].
  rewrite <- Hp. destruct (p_rewind (par s)); [apply list_sh_snoc; auto|].
  apply list_sh_snoc; auto. apply st_hist; auto.
Qed.

(** ** Rewinding: the oldest recorded state is never taken off *)
Lemma Forall2_removelast_cons {A B} (Q : A -> B -> Prop) a b l l' :
  Forall2 Q (a :: l) (b :: l') -> Forall2 Q (removelast (a :: l)) (removelast (b :: l')).
Proof. apply Forall2_removelast. Qed.

Definition back_sh (a b : list (FState E) * list (FState E)) : Prop :=
  list_sh (fst a) (fst b) /\ fst a <> [] /\ Forall2 fst_sh (snd a) (snd b).

Lemma rewind_loop_sh ts ts' : TR ts ts' -> forall base f g h h' post post',
  est_sh f g -> tle ts (f_ts f) = false -> Forall2 fst_sh h h' -> Forall2 fst_sh post post' ->
  orel back_sh (rewind_loop L ts base (f :: h) post) (rewind_loop L ts' base (g :: h') post').
Proof.
  intros Hts. induction base as [|b IH]; intros f g h h' post post' Hf Hle Hh Hp.
  - cbn. split; [simpl; auto|]. split; [discriminate|auto].
  - cbn [rewind_loop]. destruct b as [|b].
    + cbn [nth_error]. rewrite <- (sh_le H _ _ _ _ Hts (proj2 (proj2 Hf))), Hle. cbn.
      split; [simpl; auto|]. split; [discriminate|auto].
    + cbn [nth_error]. pose proof (Forall2_nth _ _ _ Hh b) as Hn.
      destruct (nth_error h b) as [x|] eqn:En, (nth_error h' b) as [y|]; try contradiction; [|cbn; auto].
      rewrite <- (sh_le H _ _ _ _ Hts (proj2 (proj2 (fst_est _ _ Hn)))). destruct (tle ts (f_ts x)); [|apply IH; auto].
      cbn [length]. rewrite <- (Forall2_len _ _ _ Hh). destruct (pop_ok L _ _); [|cbn; auto].
      destruct Hh as [|x1 y1 h h' Hx1 Hh]; [destruct b; discriminate|].
      change (removelast (f :: x1 :: h)) with (f :: removelast (x1 :: h)).
      change (removelast (g :: y1 :: h')) with (g :: removelast (y1 :: h')).
      apply IH; auto; [|apply Forall2_app; auto]. apply Forall2_removelast; auto.
Qed.

Definition rew_sh (a b : bool * St E * list (FState E)) : Prop :=
  fst (fst a) = fst (fst b) /\ st_sh (snd (fst a)) (snd (fst b)) /\ Forall2 fst_sh (snd a) (snd b).

Definition TRi (a b : TT) : Prop := TR a b \/ a = tinf /\ b = tinf.

Lemma rewindHistory_sh s t ts ts' : st_sh s t -> TRi ts ts' -> orel rew_sh (rewindHistory L s ts) (rewindHistory L t ts').
Proof.
  intros Hst Hts. pose proof Hst as (Hp & Hw & Hr & Hl & Hq & Hm). pose proof (st_ts _ _ Hst) as Hnow.
  unfold rewindHistory. fold (getStateTime s). fold (getStateTime t).
  destruct Hts as [Hts|(-> & ->)].
  2:{ destruct (sh_inf H _ _ Hnow) as (-> & ->). simpl. split; [|split]; simpl; auto. }
  rewrite <- (sh_lt H _ _ _ _ Hnow Hts). destruct (tlt (getStateTime s) ts).
  { simpl. split; [|split]; simpl; auto. }
  pose proof (st_hist _ _ Hst) as Hh.
  destruct (hist s) as [|f h] eqn:E1, (hist t) as [|g h'] eqn:E2; simpl in Hh; try contradiction.
  - simpl. split; [|split]; simpl; auto.
  - destruct Hh as (Hf & Hh). rewrite <- (sh_lt H _ _ _ _ (proj2 (proj2 Hf)) Hts).
    destruct (tlt (f_ts f) ts) eqn:Elt; [|simpl; split; [|split]; simpl; auto].
    replace (length (g :: h')) with (length (f :: h)) by (simpl; f_equal; apply (Forall2_len fst_sh); auto).
    eapply orel_bind.
    { apply rewind_loop_sh; [exact Hts|exact Hf|apply (sh_not_le H); exact Elt|exact Hh|].
      constructor; [|constructor]. apply list_sh_last in Hl as (_ & _ & Hl). apply Hl. discriminate. }
    intros [h1 p1] [h2 p2] (A & An & B). cbn [fst snd] in A, An, B.
    pose proof (list_sh_len _ _ A) as Hlen.
    destruct (exists_last An) as (r1 & b1 & ->).
    assert (An2 : h2 <> []) by (intros ->; rewrite app_length in Hlen; simpl in Hlen; lia).
    destruct (exists_last An2) as (r2 & b2 & ->).
    assert (Hlo : forall (r : list (FState E)) b, last_opt (r ++ [b]) = Some b).
    { intros r b. unfold last_opt. rewrite app_length. simpl. rewrite nth_error_app2 by lia. replace (_ - _) with 0 by lia. auto. }
    assert (Hrl : forall (r : list (FState E)) b, removelast (r ++ [b]) = r).
    { intros r b. rewrite removelast_app by discriminate. simpl. apply app_nil_r. }
    rewrite !Hlo, !Hrl. simpl. split; [|split]; simpl; auto; [|apply Forall2_rev'; auto].
    split; [|split; [|split; [|split; [|split]]]]; simpl; auto.
Qed.

(** ** Pruning keeps a prefix *)
Lemma prune_loop_sh now now' w : TR now now' -> W w -> forall base h h', Forall2 est_sh h h' ->
  orel (fun a b => length a = length b /\ (exists d, h = a ++ d) /\ exists d, h' = b ++ d)
       (prune_loop L (tsub now w) base h) (prune_loop L (tsub now' w) base h').
Proof.
  intros Hnow HW. induction base as [|b IH]; intros h h' Hh.
  - simpl. split; [apply (Forall2_len est_sh); auto|]. split; exists []; rewrite app_nil_r; auto.
  - cbn [prune_loop]. pose proof (Forall2_nth _ _ _ Hh b) as Hn.
    destruct (nth_error h b) as [f|], (nth_error h' b) as [g|]; try contradiction; [|simpl; auto].
    rewrite <- (sh_win H _ _ _ _ _ (proj2 (proj2 Hn)) Hnow HW).
    destruct (tlt (f_ts f) (tsub now w)).
    2:{ simpl. split; [apply (Forall2_len est_sh); auto|]. split; exists []; rewrite app_nil_r; auto. }
    pose proof (Forall2_len _ _ _ Hh) as Hlen. pose proof (Forall2_removelast _ _ _ Hh) as Hrl.
    destruct Hh as [|x y h h' Hxy Hh]; [simpl; auto|]. rewrite <- Hlen. destruct (pop_ok L _ _); [|simpl; auto].
    eapply orel_impl; [|apply IH; exact Hrl]. intros a c (A & (d1 & D1) & (d2 & D2)). split; auto. split.
    + exists (d1 ++ [last (x :: h) x]). rewrite app_assoc, <- D1. apply app_removelast_last. discriminate.
    + exists (d2 ++ [last (y :: h') y]). rewrite app_assoc, <- D2. apply app_removelast_last. discriminate.
Qed.

(** [new]: the current state was produced by an input of this run *)
Definition new (s t : St E) : Prop := fst_sh (c_cur (core s)) (c_cur (core t)).

Lemma pruneHistory_sh s t : st_sh s t -> new s t \/ hist s = [] -> orel st_sh (pruneHistory L s) (pruneHistory L t).
Proof.
  intros Hst Hn. pose proof Hst as (Hp & Hw & Hr & Hl & Hq & Hm). unfold pruneHistory. rewrite <- Hp.
  destruct (negb (p_rewind (par s))); [simpl; auto|].
  pose proof (st_hist _ _ Hst) as Hh. rewrite <- (list_sh_len _ _ Hh).
  eapply orel_bind; [apply prune_loop_sh; [apply (st_ts _ _ Hst)|exact Hw|apply list_sh_est; exact Hh]|].
  intros h h' (A & (d1 & D1) & (d2 & D2)). simpl.
  split; [|split; [|split; [|split; [|split]]]]; simpl; auto.
  rewrite D1, D2 in Hh. destruct Hn as [Hn|Hn].
  - apply list_sh_snoc; auto. apply (list_sh_prefix h d1 h' d2); auto.
  - rewrite Hn in D1. symmetry in D1. apply app_eq_nil in D1 as (-> & ->).
    destruct h'; [|discriminate]. simpl. split; auto. apply list_sh_last in Hl as (_ & Hl & _). exact Hl.
Qed.

Lemma applyInput_new s t i j : st_sh s t -> inp_sh i j -> orel (fun a b => st_sh a b /\ new a b) (applyInput s i) (applyInput t j).
Proof.
  intros Hst Hi. pose proof (applyInput_sh _ _ _ _ Hst Hi) as Ha. revert Ha. unfold applyInput, new.
  pose proof (input_core_sh _ _ _ _ (st_core _ _ Hst) Hi) as Hc.
  destruct (input_core (core s) i), (input_core (core t) j); simpl in *; try contradiction; auto.
  intros Ha. split; auto. apply Hc.
Qed.

Lemma ofold_new l l' : Forall2 inp_sh l l' -> forall s t, st_sh s t -> new s t \/ hist s = [] ->
  orel (fun a b => st_sh a b /\ (new a b \/ hist a = [])) (ofold applyInput l s) (ofold applyInput l' t).
Proof.
  intros Hl. induction Hl as [|i j l l' Hi Hl IH]; intros s t Hst Hn; simpl; auto.
  eapply orel_bind; [apply applyInput_new; eauto|]. intros a b (A & B). apply IH; auto.
Qed.

Lemma st_new s t : st_sh s t -> new s t \/ hist s = [].
Proof.
  intros (_ & _ & _ & Hl & _). apply list_sh_last in Hl as (_ & _ & Hl). unfold new.
  destruct (hist s); [right; auto|left; apply Hl; discriminate].
Qed.

Lemma applyBatch_sh s t l l' : st_sh s t -> Forall2 inp_sh l l' -> orel st_sh (applyBatchInputs L s l) (applyBatchInputs L t l').
Proof.
  intros Hst Hl. unfold applyBatchInputs. eapply orel_bind; [apply ofold_new; [exact Hl|exact Hst|apply st_new; exact Hst]|].
  intros a b (A & B). apply pruneHistory_sh; auto.
Qed.

Lemma prevs_sh l l' : Forall2 fst_sh l l' -> Forall2 inp_sh (map f_prev l) (map f_prev l').
Proof. induction 1 as [|a b l l' Ha Hl IH]; simpl; constructor; auto. apply Ha. Qed.

Lemma apply_late_sh s t i j : st_sh s t -> inp_sh i j -> orel st_sh (apply_late L s i) (apply_late L t j).
Proof.
  intros Hst Hi. pose proof Hi as (_ & _ & It & _). unfold apply_late.
  rewrite <- (sh_lt H _ _ _ _ It (st_ts _ _ Hst)). eapply orel_bind with (Q := rew_sh).
  - destruct (tlt _ _); [apply rewindHistory_sh; auto; left; auto|]. simpl. split; [|split]; simpl; auto.
  - intros [[b1 s1] p1] [[b2 s2] p2] (A & B & C). simpl in A, B, C. subst b2.
    destruct (negb b1); [simpl; auto|]. apply applyBatch_sh; auto. constructor; auto. apply prevs_sh; auto.
Qed.

Lemma pruneQueue_sh s t q q' : st_sh s t -> Forall2 inp_sh q q' -> Forall2 inp_sh (pruneQueue s q) (pruneQueue t q').
Proof.
  intros Hst Hq. pose proof (st_hist _ _ Hst) as Hh. pose proof Hst as (Hp & _). unfold pruneQueue. rewrite <- Hp.
  destruct (p_rewind (par s)); auto. destruct (hist s) as [|f h], (hist t) as [|g h']; simpl in Hh; try contradiction; auto.
  destruct Hh as ((_ & _ & Hf) & _). induction Hq as [|i j q q' Hi Hq IH]; simpl; auto.
  rewrite <- (sh_lt H _ _ _ _ (proj1 (proj2 (proj2 Hi))) Hf). destruct (tlt (i_ts i) (f_ts f)); auto.
Qed.

Lemma oldest_sh l l' : Forall2 inp_sh l l' -> forall a b, TRi a b -> TRi (fold_left tmin (map i_ts l) a) (fold_left tmin (map i_ts l') b).
Proof.
  induction 1 as [|i j l l' Hi Hl IH]; intros a b Hab; simpl; auto. apply IH.
  pose proof (proj1 (proj2 (proj2 Hi))) as Ht. unfold tmin. destruct Hab as [Hab|(-> & ->)].
  - rewrite <- (sh_lt H _ _ _ _ Ht Hab). destruct (tlt _ _); left; auto.
  - destruct (sh_inf H _ _ Ht) as (-> & ->). left; auto.
Qed.

Lemma forallb_sh {A B} (Q : A -> B -> Prop) f g l l' : Forall2 Q l l' -> (forall a b, Q a b -> f a = g b) -> forallb f l = forallb g l'.
Proof. intros Hl Hfg. induction Hl as [|a b l l' Ha Hl IH]; simpl; auto. rewrite IH, (Hfg _ _ Ha). auto. Qed.

Lemma swo_sh l l' : Forall2 TR l l' -> swo_ok l = swo_ok l'.
Proof.
  intros Hl. unfold swo_ok. apply (forallb_sh TR); auto. intros a a' Ha. rewrite (sh_lt H _ _ _ _ Ha Ha). f_equal.
  apply (forallb_sh TR); auto. intros b b' Hb. apply (forallb_sh TR); auto. intros c c' Hc.
  rewrite (sh_lt H _ _ _ _ Ha Hb), (sh_lt H _ _ _ _ Hb Hc), (sh_lt H _ _ _ _ Ha Hc), (sh_lt H _ _ _ _ Hb Ha),
    (sh_lt H _ _ _ _ Hc Hb), (sh_lt H _ _ _ _ Hc Ha). auto.
Qed.

Lemma std_sort_sh l l' : Forall2 inp_sh l l' -> orel (Forall2 inp_sh) (std_sort L l) (std_sort L l').
Proof.
  intros Hl. unfold std_sort. rewrite (swo_sh (map i_ts l) (map i_ts l')).
  - destruct (swo_ok _); simpl; auto. apply HL; auto. intros i j i' j' Hi Hj. apply (sh_lt H); [apply Hi|apply Hj].
  - induction Hl as [|i j l l' Hi Hl IH]; simpl; constructor; auto. apply Hi.
Qed.

Lemma processQueues_sh s t : st_sh s t -> orel st_sh (processQueues L s) (processQueues L t).
Proof.
  intros Hst. pose proof Hst as (Hp & Hw & Hr & Hl & Hq & Hm). unfold processQueues. cbv zeta. cbn [par core hist cq mq].
  set (s0 := mkSt (par s) _ _ _ _). set (t0 := mkSt (par t) _ _ _ _).
  assert (H0 : st_sh s0 t0).
  { split; [|split; [|split; [|split; [|split]]]]; simpl; auto; apply pruneQueue_sh; auto. }
  rewrite <- Hp.
  eapply orel_bind with (Q := fun a b => st_sh (fst a) (fst b) /\ Forall2 fst_sh (snd a) (snd b)).
  - destruct (p_rewind (par s)); [|simpl; auto].
    eapply orel_bind.
    + apply rewindHistory_sh; [exact H0|]. apply oldest_sh; [|right; auto].
      apply Forall2_app; apply pruneQueue_sh; auto.
    + intros [[b1 s1] p1] [[b2 s2] p2] (A & B & C). simpl in *. auto.
  - intros [s1 p1] [s2 p2] (A & B). simpl in A, B. pose proof A as (_ & _ & _ & _ & A3 & A4).
    eapply orel_bind; [apply std_sort_sh; apply Forall2_app; [apply prevs_sh; eauto|apply Forall2_app; eauto]|].
    intros l l' Hll. eapply orel_bind; [apply applyBatch_sh; eauto|].
    intros s3 t3 (B1 & B2 & B3 & B4 & B5 & B6). simpl. split; [|split; [|split; [|split; [|split]]]]; simpl; auto.
Qed.

Lemma step_sh s t o o' : st_sh s t -> op_sh o o' -> orel st_sh (step L s o) (step L t o').
Proof.
  intros Hst Ho. pose proof Hst as (Hp & Hw & Hr & Hl & Hq & Hm). pose proof (st_ts _ _ Hst) as Hnow.
  assert (Hctl : forall u ts ts', TR ts ts' -> inp_sh (mkInput u (s_Rc (c_sys (core s))) ts true None) (mkInput u (s_Rc (c_sys (core t))) ts' true None)).
  { intros u ts ts' Ht. destruct Hr as (_ & _ & -> & _). repeat split; simpl; auto. }
  assert (Hgo : forall i j, inp_sh i j ->
     orel st_sh (let* s1 := applyInput s i in pruneHistory L s1) (let* s1 := applyInput t j in pruneHistory L s1)).
  { intros i j Hi. eapply orel_bind; [apply applyInput_new; eauto|]. intros a b (A & B); apply pruneHistory_sh; auto. }
  destruct o, o'; simpl in Ho; try contradiction; cbn [step].
  - destruct Ho as (<- & <- & Ht). unfold initialize. simpl.
    split; [|split; [|split; [|split; [|split]]]]; simpl; auto. split; auto. split; [|split]; simpl; auto.
  - unfold predict_t. rewrite <- (sh_lt H _ _ _ _ Hnow Ho). destruct (tlt _ _); [|simpl; auto].
    apply Hgo. apply Hctl; auto.
  - destruct Ho as (<- & Ht). unfold predict_u. rewrite <- Hp, <- (sh_le H _ _ _ _ Hnow Ht).
    destruct (negb _).
    + destruct (tle _ _); [|simpl; auto]. apply Hgo. auto.
    + apply apply_late_sh; auto.
  - destruct Ho as (<- & <- & Ht & <-). unfold correct. rewrite <- Hp, <- (sh_sub H _ _ _ _ Ht Hnow).
    assert (Hi : inp_sh (mkInput z Q t0 false m) (mkInput z Q t1 false m)) by (repeat split; auto).
    destruct (negb _).
    + destruct (_ || _); [|simpl; auto]. apply Hgo. auto.
    + apply apply_late_sh; auto.
  - destruct Ho as (<- & Ht). simpl. split; [|split; [|split; [|split; [|split]]]]; simpl; auto. apply Forall2_app; auto.
  - destruct Ho as (<- & <- & Ht & <-). simpl. split; [|split; [|split; [|split; [|split]]]]; simpl; auto. apply Forall2_app; auto.
    constructor; auto. repeat split; auto.
  - apply processQueues_sh; auto.
  - simpl. split; [|split; [|split; [|split; [|split]]]]; simpl; auto.
  - simpl. split; [|split; [|split; [|split; [|split]]]]; simpl; auto.
  - unfold revertToState. eapply orel_bind with (Q := fun a b => st_sh (fst a) (fst b)).
    + eapply orel_bind; [apply rewindHistory_sh; [exact Hst|left; exact Ho]|].
      intros [[b1 s1] p1] [[b2 s2] p2] (A & B & C). simpl in A, B, C. subst b2.
      destruct B as (B1 & B2 & B3 & B4 & B5 & B6).
      destruct b1; simpl; split; auto; simpl; split; auto; simpl; split; auto; simpl; auto.
    + intros [s1 b1] [s2 b2]; simpl; auto.
  - destruct Ho as (<- & Hpw). simpl. split; [|split; [|split; [|split; [|split]]]]; simpl; auto.
  - subst. simpl. split; [|split; [|split; [|split; [|split]]]]; simpl; auto.
    destruct Hr as (A & B & C & D). split; [|split; [|split]]; simpl; auto. rewrite C; auto.
  - subst. simpl. split; [|split; [|split; [|split; [|split]]]]; simpl; auto.
    destruct Hr as (A & B & C & D). split; [|split; [|split]]; simpl; auto. rewrite D; auto.
Qed.

Lemma run_sh ops ops' s t : st_sh s t -> Forall2 op_sh ops ops' -> orel st_sh (run L ops s) (run L ops' t).
Proof. intros Hst Ho. unfold run. eapply orel_ofold; [|exact Ho|exact Hst]. intros; apply step_sh; auto. Qed.

Lemma new_filter_sh sy ms x P t t' : TR t t' -> st_sh (new_filter sy ms x P t) (new_filter sy ms x P t').
Proof.
  intros Ht. split; [|split; [|split; [|split; [|split]]]]; simpl; auto; [apply (sh_one H)|repeat split|].
  split; auto. split; [|split]; auto.
Qed.

Theorem run_new_sh sy ms x P t t' ops ops' : TR t t' -> Forall2 op_sh ops ops' ->
  orel st_sh (run L ops (new_filter sy ms x P t)) (run L ops' (new_filter sy ms x P t')).
Proof. intros Ht Ho. apply run_sh; auto. apply new_filter_sh; auto. Qed.
End Shift.

(** exact time: order follows from differences *)
Lemma exact_shift {TT : TimeOps} {fin : TT -> Prop} (Hx : ExactTime TT fin) (TR : TT -> TT -> Prop) (W : TT -> Prop) :
  (forall a a', TR a a' -> fin a /\ fin a') ->
  (forall a b a' b', TR a a' -> TR b b' -> tsub a b = tsub a' b') ->
  (forall a b w a' b', TR a a' -> TR b b' -> W w -> tlt a (tsub b w) = tlt a' (tsub b' w)) -> W tone ->
  TimeShift TR W.
Proof.
  intros Hf Hs Hw H1. split; auto.
  - intros a b a' b' Ha Hb. destruct (Hf _ _ Ha) as (F1 & F2), (Hf _ _ Hb) as (F3 & F4).
    rewrite <- (et_sub_pos _ _ Hx a b), <- (et_sub_pos _ _ Hx a' b'), (Hs _ _ _ _ Hb Ha); auto.
  - intros a b a' b' Ha Hb. destruct (Hf _ _ Ha) as (F1 & F2), (Hf _ _ Hb) as (F3 & F4).
    rewrite <- (et_sub_nonneg _ _ Hx a b), <- (et_sub_nonneg _ _ Hx a' b'), (Hs _ _ _ _ Hb Ha); auto.
  - intros a a' Ha. destruct (Hf _ _ Ha). split; apply (et_inf _ _ Hx); auto.
  - intros a b a' b' Ha Hb. destruct (Hf _ _ Ha) as (F1 & F2), (Hf _ _ Hb) as (F3 & F4).
    rewrite (et_add_sub _ _ Hx a b), (et_add_sub _ _ Hx a' b'); auto.
  - intros a b. apply (et_lt_not_le _ _ Hx).
Qed.
