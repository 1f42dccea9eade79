(** C89: the planar_2d vector operations and the usage argument. *)
From Coq Require Import Reals List Lra Lia Bool Arith.
From Verif Require Import Outcome Angles Props_Angles Planar.
Import ListNotations.
Open Scope R_scope.

(** ** Specification *)
(** number of states in use; where state i is found in the vector of the states in use *)
Definition in_use (usage : list bool) : nat := length (filter (fun b => b) usage).
Definition place (usage : list bool) (i : nat) : nat := in_use (firstn i usage).
(** [f] applied state by state to the states in use, the heading (state 6)
    modulo full turns into [-pi, pi] *)
Definition planar_op (f : R -> R -> R) (usage : list bool) (a b s : list R) : Prop :=
  length s = in_use usage /\
  forall i, (i < 8)%nat -> nth i usage false = true ->
    let p := place usage i in
    (i = 6%nat -> - PI <= nth p s 0 <= PI /\ congruent (nth p s 0) (f (nth p a 0) (nth p b 0)))
    /\ (i <> 6%nat -> nth p s 0 = f (nth p a 0) (nth p b 0)).
(** [op] does the right thing for this usage on all vectors of the states in use *)
Definition honours (op : list R -> list R -> list bool -> outcome (list R)) (f : R -> R -> R) (usage : list bool) : Prop :=
  forall a b, length a = in_use usage -> length b = in_use usage ->
    exists s, op a b usage = Ok s /\ planar_op f usage a b s.
Definition C89_claim : Prop := forall usage, length usage = 8%nat ->
  honours p2v_addState Rplus usage /\ honours p2v_subtractState Rminus usage.

(** ** Vectors *)
Lemma vzip_ok f a b : length a = length b -> exists l, vzip f a b = Ok l /\ length l = length a /\ forall i, (i < length a)%nat -> nth i l 0 = f (nth i a 0) (nth i b 0).
Proof.
  revert b. induction a as [|x a IH]; intros [|y b] H; try discriminate; simpl.
  - exists []. repeat split. simpl. lia.
  - destruct (IH b) as (l & -> & Hl & Hn); [simpl in H; lia|]. exists (f x y :: l). simpl. repeat split; [lia|].
    intros [|i] Hi; [reflexivity|]. apply Hn. lia.
Qed.
Lemma vget_ok v i : (i < length v)%nat -> vget v i = Ok (nth i v 0).
Proof. intros H. unfold vget. rewrite (nth_error_nth' v 0 H). reflexivity. Qed.
Lemma vget_oob v i : (length v <= i)%nat -> vget v i = Ub ub_oob.
Proof. intros H. unfold vget. rewrite (proj2 (nth_error_None v i) H). reflexivity. Qed.
Lemma vput_ok v i x : (i < length v)%nat -> exists l, vput v i x = Ok l /\ length l = length v /\ nth i l 0 = x /\ forall j, j <> i -> nth j l 0 = nth j v 0.
Proof.
  revert i. induction v as [|y v IH]; intros [|i] H; simpl in *; try lia.
  - exists (x :: v). repeat split. intros [|j] Hj; [lia|reflexivity].
  - destruct (IH i) as (l & -> & Hl & Hx & Ho); [lia|]. exists (y :: l). simpl. repeat split; [lia|exact Hx|].
    intros [|j] Hj; [reflexivity|]. apply Ho. lia.
Qed.
Lemma in_use_le l : (in_use l <= length l)%nat.
Proof. unfold in_use. induction l as [|[] l IH]; simpl; lia. Qed.

(** ** What the operations do: entry 6 of the vector is treated as the heading, whatever it is *)
Lemma add_does a b usage : length a = length b -> (6 < length a)%nat ->
  exists s, p2v_addState a b usage = Ok s /\ length s = length a
  /\ - PI <= nth 6 s 0 <= PI /\ congruent (nth 6 s 0) (nth 6 a 0 + nth 6 b 0)
  /\ forall i, i <> 6%nat -> (i < length a)%nat -> nth i s 0 = nth i a 0 + nth i b 0.
Proof.
  intros H L. unfold p2v_addState. destruct (vzip_ok Rplus a b H) as (l & -> & Hl & Hn). cbn [obind].
  rewrite vget_ok by (rewrite Hl; exact L). cbn [obind]. unfold p2_PSI. rewrite Hn by exact L.
  destruct (C53_constrainAngle (nth 6 a 0 + nth 6 b 0)) as (h & -> & _ & Hr & Hc & _). cbn [obind].
  destruct (vput_ok l 6 h) as (s & Hs & Ls & S6 & So); [lia|].
  exists s. split; [exact Hs|]. split; [lia|]. rewrite S6. split; [exact Hr|]. split; [exact Hc|].
  intros i Hi Li. rewrite So by exact Hi. apply Hn, Li.
Qed.
Lemma sub_does a b usage : length a = length b -> (6 < length a)%nat ->
  exists s, p2v_subtractState a b usage = Ok s /\ length s = length a
  /\ - PI <= nth 6 s 0 <= PI /\ congruent (nth 6 s 0) (nth 6 a 0 - nth 6 b 0)
  /\ forall i, i <> 6%nat -> (i < length a)%nat -> nth i s 0 = nth i a 0 - nth i b 0.
Proof.
  intros H L. unfold p2v_subtractState. destruct (vzip_ok Rminus a b H) as (l & -> & Hl & Hn). cbn [obind]. unfold p2_PSI.
  rewrite !vget_ok by (rewrite <- ?H; exact L). cbn [obind].
  destruct (C55_angleDifference (nth 6 a 0) (nth 6 b 0)) as (Hr & Hc & _).
  destruct (vput_ok l 6 (angleDifference (nth 6 a 0) (nth 6 b 0))) as (s & Hs & Ls & S6 & So); [lia|].
  exists s. split; [exact Hs|]. split; [lia|]. rewrite S6. split; [exact Hr|]. split; [exact Hc|].
  intros i Hi Li. rewrite So by exact Hi. apply Hn, Li.
Qed.
(** fewer than seven states in use: every call writes or reads out of bounds *)
Theorem C89_short (usage : list bool) (a b : list R) : (in_use usage < 7)%nat -> length a = in_use usage -> length b = in_use usage ->
  p2v_addState a b usage = Ub ub_oob /\ p2v_subtractState a b usage = Ub ub_oob.
Proof.
  intros Hu Ha Hb. unfold p2v_addState, p2v_subtractState, p2_PSI.
  destruct (vzip_ok Rplus a b) as (l & -> & Hl & _); [lia|]. destruct (vzip_ok Rminus a b) as (l' & -> & Hl' & _); [lia|]. cbn [obind].
  rewrite !vget_oob by lia. split; reflexivity.
Qed.
Theorem C89_short_sum (usage : list bool) (w : list R) (X : list (list R)) : (in_use usage < 7)%nat -> length w = length X ->
  Forall (fun c => length c = in_use usage) X -> p2v_weightedSumOfStates w (in_use usage) X usage = Ub ub_oob.
Proof.
  intros Hu Hw Hc. unfold p2v_weightedSumOfStates. rewrite (proj2 (Nat.eqb_eq _ _) Hw).
  set (n := in_use usage) in *. clearbody n. unfold p2_PSI. rewrite (proj2 (Nat.ltb_ge 6 n)) by lia.
  assert (forall acc, length acc = n -> exists s, ofold (fun (acc : list R) (wx : R * list R) => vzip Rplus acc (map (Rmult (fst wx)) (snd wx))) (combine w X) acc = Ok s) as Hf.
  { clear Hu. revert X Hw Hc. induction w as [|x w IH]; intros [|c X] Hw Hc acc Hacc; try discriminate; simpl; [eauto|].
    inversion Hc; subst. destruct (vzip_ok Rplus acc (map (Rmult x) c)) as (l & -> & Hl & _); [rewrite map_length; lia|]. cbn [obind].
    apply IH; [simpl in Hw; lia|assumption|lia]. }
  destruct (Hf (repeat 0 n)) as (s & ->); [apply repeat_length|]. reflexivity.
Qed.
(** the first seven states in use: right *)
Lemma place_seven usage i : length usage = 8%nat -> firstn 7 usage = repeat true 7 -> (i < 8)%nat -> place usage i = i.
Proof.
  intros L F Hi. do 9 (destruct usage as [|? usage]; try discriminate). injection F as -> -> -> -> -> -> ->.
  unfold place. do 8 (destruct i as [|i]; [reflexivity|]). lia.
Qed.
Lemma use_seven usage : length usage = 8%nat -> firstn 7 usage = repeat true 7 -> (7 <= in_use usage)%nat /\ (nth 7 usage false = true -> in_use usage = 8%nat).
Proof.
  intros L F. do 9 (destruct usage as [|? usage]; try discriminate). injection F as -> -> -> -> -> -> ->.
  match goal with b : bool |- _ => destruct b end; unfold in_use; simpl; split; intros; try lia; discriminate.
Qed.
Lemma seven usage f op : length usage = 8%nat -> firstn 7 usage = repeat true 7 ->
  (forall a b, length a = length b -> (6 < length a)%nat -> exists s, op a b usage = Ok s /\ length s = length a
    /\ - PI <= nth 6 s 0 <= PI /\ congruent (nth 6 s 0) (f (nth 6 a 0) (nth 6 b 0))
    /\ forall i, i <> 6%nat -> (i < length a)%nat -> nth i s 0 = f (nth i a 0) (nth i b 0)) ->
  honours op f usage.
Proof.
  intros L F Hop a b Ha Hb. destruct (use_seven usage L F) as [U7 U8].
  destruct (Hop a b) as (s & Hs & Ls & Hr & Hc & Ho); [lia|lia|]. exists s. split; [exact Hs|]. split; [lia|].
  intros i Hi Hu. cbv zeta. rewrite (place_seven usage i L F Hi). split.
  - intros ->. split; [exact Hr|exact Hc].
  - intros H6. apply Ho; [exact H6|]. destruct (Nat.eq_dec i 7) as [->|]; [rewrite Ha, U8 by exact Hu; lia|lia].
Qed.
(** ** Exactly when: the operations honour the usage iff the first seven states are all in use *)
Lemma use_bad usage : length usage = 8%nat -> firstn 7 usage <> repeat true 7 -> (in_use usage < 7)%nat \/ (in_use usage = 7%nat /\ nth 7 usage false = true /\ place usage 7 = 6%nat).
Proof.
  intros L F. do 9 (destruct usage as [|[] usage]; try discriminate); simpl in *; try congruence; unfold place, in_use; simpl; auto; try (left; lia).
Qed.
Lemma bad_op usage f op : length usage = 8%nat -> firstn 7 usage <> repeat true 7 -> f 5 0 = 5 ->
  (forall a b, (in_use usage < 7)%nat -> length a = in_use usage -> length b = in_use usage -> op a b usage = Ub ub_oob) ->
  (forall a b, length a = length b -> (6 < length a)%nat -> exists s, op a b usage = Ok s /\ - PI <= nth 6 s 0 <= PI) ->
  ~ honours op f usage.
Proof.
  intros L F Ef Hs Hl H. destruct (H (repeat 5 (in_use usage)) (repeat 0 (in_use usage))) as (s & Es & Hlen & Hop); [apply repeat_length|apply repeat_length|].
  destruct (use_bad usage L F) as [U|(U & U7 & P7)].
  - rewrite Hs in Es by (auto; apply repeat_length). discriminate.
  - destruct (Hop 7%nat) as [_ H7]; [lia|exact U7|]. specialize (H7 ltac:(lia)). rewrite P7, U in H7. simpl in H7. rewrite Ef in H7.
    destruct (Hl (repeat 5 (in_use usage)) (repeat 0 (in_use usage))) as (s' & Es' & Hr); [rewrite !repeat_length; reflexivity|rewrite repeat_length; lia|].
    rewrite Es' in Es. injection Es as <-. pose proof PI_4. lra.
Qed.
Theorem C89_exact_partial (usage : list bool) : length usage = 8%nat ->
  (honours p2v_addState Rplus usage <-> firstn 7 usage = repeat true 7)
  /\ (honours p2v_subtractState Rminus usage <-> firstn 7 usage = repeat true 7).
Proof.
  intros L. assert ({firstn 7 usage = repeat true 7} + {firstn 7 usage <> repeat true 7}) as [F|F] by (apply list_eq_dec, bool_dec).
  - split; (split; [intros _; exact F|intros _]); apply seven; auto; intros a b; [apply add_does|apply sub_does].
  - split; (split; [intros H; exfalso; revert H|intros H; contradiction]); apply bad_op; auto; try lra; try (intros; apply C89_short; auto; fail).
    + intros a b Hl L6. destruct (add_does a b usage Hl L6) as (s & Hs & _ & Hr & _). eauto.
    + intros a b Hl L6. destruct (sub_does a b usage Hl L6) as (s & Hs & _ & Hr & _). eauto.
Qed.
(** the weighted sum of vectors of more than six entries: entry by entry, except that entry 6 is the
    weighted mean of the angles in the entries 6 (weightedAngleSum, C56) *)
Theorem C89_sum (w : list R) (X : list (list R)) (n : nat) (usage : list bool) : (6 < n)%nat -> length w = length X ->
  Forall (fun c => length c = n) X ->
  exists s, p2v_weightedSumOfStates w n X usage = Ok s /\ length s = n
  /\ weightedAngleSum w (map (fun c => nth 6 c 0) X) = Ok (nth 6 s 0)
  /\ forall i, (i < n)%nat -> i <> 6%nat -> nth i s 0 = wsum w (map (fun c => nth i c 0) X).
Proof.
  intros Hn Hw Hc. unfold p2v_weightedSumOfStates. rewrite (proj2 (Nat.eqb_eq _ _) Hw). unfold p2_PSI. rewrite (proj2 (Nat.ltb_lt 6 n)) by lia.
  assert (forall acc, length acc = n -> exists s, ofold (fun (acc : list R) (wx : R * list R) => vzip Rplus acc (map (Rmult (fst wx)) (snd wx))) (combine w X) acc = Ok s
    /\ length s = n /\ forall i, (i < n)%nat -> nth i s 0 = nth i acc 0 + wsum w (map (fun c => nth i c 0) X)) as Hf.
  { revert X Hw Hc. induction w as [|x w IH]; intros [|c X] Hw Hc acc Hacc; try discriminate; simpl.
    - exists acc. split; [reflexivity|]. split; [exact Hacc|]. intros i _. lra.
    - inversion Hc; subst. destruct (vzip_ok Rplus acc (map (Rmult x) c)) as (l & -> & Hl & Hi); [rewrite map_length; lia|]. cbn [obind].
      destruct (IH X) with (acc := l) as (s & Es & Ls & Is); [simpl in Hw; lia|assumption|lia|].
      exists s. split; [exact Es|]. split; [exact Ls|]. intros i Li. rewrite Is by exact Li. rewrite Hi by lia.
      rewrite (nth_indep (map (Rmult x) c) 0 (x * 0)) by (rewrite map_length; lia). rewrite map_nth. lra. }
  destruct (Hf (repeat 0 n)) as (s & -> & Ls & Is); [apply repeat_length|]. cbn [obind].
  assert (forall acc, ofold (fun (acc : list R) (c : list R) => let* x := vget c 6 in Ok (acc ++ [x])) X acc = Ok (acc ++ map (fun c => nth 6 c 0) X)) as Hrow.
  { clear Hw Hf Is. induction Hc as [|c X Lc _ IH]; intros acc; simpl; [rewrite app_nil_r; reflexivity|].
    rewrite vget_ok by lia. cbn [obind]. rewrite IH, <- app_assoc. reflexivity. }
  unfold p2v_row. rewrite Hrow. cbn [obind app].
  destruct (C56_total w (map (fun c => nth 6 c 0) X)) as (m & -> & _); [rewrite map_length; exact Hw|]. cbn [obind].
  destruct (vput_ok s 6 m) as (l & -> & Hl & Hm & Ho); [lia|]. exists l. split; [reflexivity|]. split; [lia|]. rewrite Hm. split; [reflexivity|].
  intros i Li Hi. rewrite Ho, Is by assumption. rewrite nth_repeat. lra.
Qed.
(** position x not in use *)
Theorem C89_refuted : ~ C89_claim.
Proof.
  intros H. destruct (H (false :: repeat true 7) eq_refl) as [Ha _]. apply (C89_exact_partial (false :: repeat true 7) eq_refl) in Ha. discriminate.
Qed.
Example C89_nonvacuous_sum : exists s, p2v_weightedSumOfStates [1; 2] 7 [[1; 2; 3; 4; 5; 6; 0]; [1; 1; 1; 1; 1; 2; 0]] (repeat true 8) = Ok s /\ nth 5 s 0 = 10.
Proof.
  destruct (C89_sum [1; 2] [[1; 2; 3; 4; 5; 6; 0]; [1; 1; 1; 1; 1; 2; 0]] 7 (repeat true 8)) as (s & E & _ & _ & H); [lia|reflexivity|repeat constructor|].
  exists s. split; [exact E|]. rewrite H by lia. simpl. lra.
Qed.
Example C89_nonvacuous : honours p2v_addState Rplus (repeat true 8) /\ honours p2v_subtractState Rminus (repeat true 7 ++ [false])
  /\ in_use [false; false; true; true; false; false; true; true] = 4%nat.
Proof. repeat split; apply C89_exact_partial; reflexivity. Qed.
