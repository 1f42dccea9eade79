(** C31, C32, C33: the active index lists of system models (states, controls) and measurement
    models.  The statements use only the observers activeStates() ([a_active]), stateUsage()
    ([a_usage]), activeStateSize() ([activeSize]) and the dimension. *)
From Coq Require Import List Arith Bool Lia Permutation Sorted.
From Verif Require Import Outcome FB_Model ActiveSets.
Import ListNotations.

Definition count (i : nat) (l : list nat) : nat := count_occ Nat.eq_dec l i.

Lemma count_perm i l l' : Permutation l l' -> count i l = count i l'.
Proof. intros H. apply (Permutation_count_occ Nat.eq_dec l l'). exact H. Qed.
Lemma count_filter f i l : count i (filter f l) = if f i then count i l else 0.
Proof.
  unfold count. induction l as [|j l IH]; simpl; [destruct (f i); auto|].
  destruct (f j) eqn:Hj; simpl; destruct (Nat.eq_dec j i) as [->|Hn]; rewrite IH; auto; destruct (f i); congruence.
Qed.

Lemma usage_nth s l i : length (a_usage s) = a_dims s -> i < a_dims s ->
  nth i (a_usage (setActive s l)) 0
  = if (match filter (fun i => i <? a_dims s) l with [] => true | _ => false end)
       || existsb (Nat.eqb i) (filter (fun i => i <? a_dims s) l) then 1 else 0.
Proof.
  intros HL Hi. unfold setActive; simpl. destruct (filter (fun i0 => i0 <? a_dims s) l) as [|a act] eqn:Hf.
  - rewrite HL. simpl.
    assert (H: nth i (repeat 1 (a_dims s)) 0 = 1).
    { rewrite nth_indep with (d' := 1) by (rewrite repeat_length; auto). apply nth_repeat. }
    rewrite H; reflexivity.
  - assert (HF : Forall (fun i0 => i0 < length (repeat 0 (length (a_usage s)))) (a :: act)).
    { rewrite repeat_length, HL. apply Forall_forall. intros j Hj. rewrite <- Hf in Hj.
      apply filter_In in Hj. apply Nat.ltb_lt, Hj. }
    transitivity (nth i (mark (repeat 0 (length (a_usage s))) (a :: act)) 0); [reflexivity|].
    rewrite mark_nth by exact HF. rewrite nth_repeat. reflexivity.
Qed.

Theorem C31_setActive : forall n s0 l, reachable n s0 ->
  let s := setActive s0 l in
  (** activeStates() is sorted and consists of the valid indices of [l], each as often as in [l] *)
  StronglySorted le (a_active s)
  /\ (forall i, In i (a_active s) <-> In i l /\ i < n)
  /\ (forall i, count i (a_active s) = if i <? n then count i l else 0)
  (** stateUsage() *)
  /\ length (a_usage s) = n
  /\ (forall i, i < n -> nth i (a_usage s) 0 = 1 \/ nth i (a_usage s) 0 = 0)
  /\ (forall i, i < n -> (nth i (a_usage s) 0 = 1 <-> a_active s = [] \/ In i (a_active s)))
  (** activeStateSize() *)
  /\ (length l < 2 ^ 16 -> activeSize s = match a_active s with [] => n | _ => length (a_active s) end).
Proof.
  intros n s0 l Hr s. destruct (reachable_inv _ _ Hr) as (Hd & HL).
  assert (Hin : forall i, In i (a_active s) <-> In i l /\ i < n).
  { intros i. unfold s, setActive; simpl.
    assert (In i (sort_nat (filter (fun i0 => i0 <? a_dims s0) l)) <-> In i (filter (fun i0 => i0 <? a_dims s0) l)).
    { split; apply Permutation_in; [|symmetry]; apply sort_perm. }
    rewrite H, filter_In, Nat.ltb_lt, Hd. tauto. }
  assert (Hnil : a_active s = [] <-> filter (fun i => i <? a_dims s0) l = []).
  { unfold s, setActive; simpl. split; intros H.
    - apply Permutation_nil. rewrite <- H. apply sort_perm.
    - rewrite H. reflexivity. }
  assert (Hus : forall i, i < n -> nth i (a_usage s) 0
                = if (match filter (fun i => i <? a_dims s0) l with [] => true | _ => false end)
       || existsb (Nat.eqb i) (filter (fun i => i <? a_dims s0) l) then 1 else 0).
  { intros i Hi. apply usage_nth; lia. }
  split; [apply sort_sorted|]. split; [exact Hin|]. split.
  { intros i. unfold s, setActive; simpl. rewrite (count_perm i _ _ (sort_perm _)), count_filter, Hd. reflexivity. }
  split; [unfold s; rewrite setActive_usage_length; exact HL|]. split.
  { intros i Hi. rewrite (Hus i Hi). destruct (_ || _); auto. }
  split.
  { intros i Hi. rewrite (Hus i Hi). rewrite Hnil.
    assert (Hex : existsb (Nat.eqb i) (filter (fun i0 => i0 <? a_dims s0) l) = true <-> In i (a_active s)).
    { rewrite existsb_exists, Hin. split.
      - intros (j & Hj & E). apply Nat.eqb_eq in E. subst j. apply filter_In in Hj. destruct Hj as (A & B).
        apply Nat.ltb_lt in B. split; [auto|lia].
      - intros (A & B). exists i. split; [|apply Nat.eqb_refl]. apply filter_In. split; auto. apply Nat.ltb_lt. lia. }
    destruct (filter (fun i0 => i0 <? a_dims s0) l) as [|a act] eqn:Hf; cbn [orb].
    - split; auto.
    - rewrite <- Hex. clear. destruct (existsb _ _); split; [auto|auto|intros H; discriminate H|].
      intros [H|H]; [discriminate H|discriminate H]. }
  intros Hlen. unfold activeSize. destruct (a_active s) as [|a act] eqn:Ha; [unfold s, setActive; simpl; exact Hd|].
  apply Nat.mod_small. 
  assert (length (a :: act) <= length l).
  { rewrite <- Ha. unfold s, setActive; simpl. rewrite (Permutation_length (sort_perm _)). 
    clear. induction l as [|j l IH]; simpl; auto. destruct (_ <? _); simpl; lia. }
  lia.
Qed.

(** order of the arguments does not matter; and earlier calls leave no trace *)
Theorem C31_order_and_history : forall n s1 s2 l l', reachable n s1 -> reachable n s2 ->
  Permutation l l' -> setActive s1 l = setActive s2 l'.
Proof.
  intros n s1 s2 l l' H1 H2 Hp.
  destruct (reachable_inv _ _ H1) as (D1 & L1). destruct (reachable_inv _ _ H2) as (D2 & L2).
  assert (R1 : reachable n (setActive s1 l)).
  { destruct H1 as (ls & E). exists (ls ++ [l]). rewrite fold_left_app, <- E. reflexivity. }
  assert (R2 : reachable n (setActive s2 l')).
  { destruct H2 as (ls & E). exists (ls ++ [l']). rewrite fold_left_app, <- E. reflexivity. }
  assert (Ea : a_active (setActive s1 l) = a_active (setActive s2 l')).
  { unfold setActive; simpl. rewrite D1, D2. apply sort_perm_eq, filter_perm, Hp. }
  destruct (C31_setActive n s1 l H1) as (_ & _ & _ & La & Va & Ua & _).
  destruct (C31_setActive n s2 l' H2) as (_ & _ & _ & Lb & Vb & Ub & _).
  assert (Eu : a_usage (setActive s1 l) = a_usage (setActive s2 l')).
  { apply nth_ext with (d := 0) (d' := 0); [congruence|]. intros i Hi. rewrite La in Hi.
    specialize (Va i Hi). specialize (Vb i Hi). specialize (Ua i Hi). specialize (Ub i Hi). rewrite <- Ea in Ub.
    destruct Va as [Va|Va], Vb as [Vb|Vb]; rewrite Va, Vb in *; auto; intuition discriminate. }
  destruct (setActive s1 l) as [d a u] eqn:E1, (setActive s2 l') as [d' a' u'] eqn:E2; simpl in *.
  assert (d = d').
  { change d with (a_dims (mkASet d a u)). change d' with (a_dims (mkASet d' a' u')). rewrite <- E1, <- E2. simpl. congruence. }
  congruence.
Qed.

(** Witness: dimension 5, earlier call with [0;1], then unsorted indices, one out of range *)
Example C31_witness :
  reachable 5 (setActive (newASet 5) [0; 1])
  /\ setActive (setActive (newASet 5) [0; 1]) [4; 9; 2] = mkASet 5 [2; 4] [0; 0; 1; 0; 1]
  /\ activeSize (setActive (setActive (newASet 5) [0; 1]) [4; 9; 2]) = 2.
Proof. split; [exists [[0; 1]]; reflexivity|]. vm_compute. auto. Qed.

(** C32: no duplicates.  False: duplicates survive and are counted *)
Definition C32_claim : Prop := forall n l, NoDup (a_active (setActive (newASet n) l)).
Theorem C32_refuted : ~ C32_claim.
Proof.
  intros H. specialize (H 3 [1; 1]). vm_compute in H. inversion H as [|? ? Hn _]; subst. apply Hn. simpl; auto.
Qed.
(** consequence: activeStateSize() can exceed stateSize() *)
Example C32_size_exceeds_dimension : activeSize (setActive (newASet 3) [1; 1; 1; 2]) = 4.
Proof. reflexivity. Qed.
(** ... and, being converted to uint16_t, it can be 0 although states are active *)
Lemma many_zeros k : k <> 0 -> let s := setActive (newASet 1) (repeat 0 k) in a_active s <> [] /\ activeSize s = k mod (2 ^ 16).
Proof.
  intros Hk s. assert (H : a_active s = repeat 0 k).
  { unfold s, setActive, newASet. cbn [a_dims a_active].
    assert (F : forall k, filter (fun i => i <? a_dims (setActive (mkASet 1 [] (repeat 0 1)) [])) (repeat 0 k) = repeat 0 k).
    { induction k0 as [|k0 IH]; simpl; auto. simpl in IH. rewrite IH; auto. }
    rewrite F. clear. induction k as [|k IH]; auto.
    change (repeat 0 (S k)) with (0 :: repeat 0 k). unfold sort_nat in *. cbn [fold_right]. rewrite IH. destruct k; reflexivity. }
  unfold activeSize. rewrite H. destruct k as [|k]; [destruct Hk; reflexivity|]. split; [discriminate|].
  cbn [repeat]. f_equal. cbn [length]. rewrite repeat_length. reflexivity.
Qed.
Theorem C32_size_wraps : let s := setActive (newASet 1) (repeat 0 (2 ^ 16)) in a_active s <> [] /\ activeSize s = 0.
Proof.
  intros s. assert (Hpos : 2 ^ 16 <> 0) by (apply Nat.pow_nonzero; discriminate).
  destruct (many_zeros (2 ^ 16) Hpos) as (A & B). split; [exact A|]. etransitivity; [exact B|].
  apply Nat.mod_same; exact Hpos.
Qed.
(** what holds: lists without repetition stay so, and then the size is at most the dimension *)
Theorem C32_distinct_partial : forall n s0 l, reachable n s0 -> NoDup l ->
  NoDup (a_active (setActive s0 l)) /\ length (a_active (setActive s0 l)) <= n.
Proof.
  intros n s0 l Hr Hl. destruct (C31_setActive n s0 l Hr) as (_ & Hin & _).
  assert (Hn : NoDup (a_active (setActive s0 l))).
  { unfold setActive; simpl. eapply Permutation_NoDup; [symmetry; apply sort_perm|]. apply NoDup_filter, Hl. }
  split; [exact Hn|]. rewrite <- (seq_length n 0). apply NoDup_incl_length; auto.
  intros i Hi. apply Hin in Hi. apply in_seq. lia.
Qed.
(** and repetition does not matter for stateUsage() *)
Theorem C32_usage_partial : forall n s1 s2 l l', reachable n s1 -> reachable n s2 ->
  (forall i, i < n -> (In i l <-> In i l')) -> a_usage (setActive s1 l) = a_usage (setActive s2 l').
Proof.
  intros n s1 s2 l l' H1 H2 Hs.
  destruct (C31_setActive n s1 l H1) as (_ & Ia & _ & La & Va & Ua & _).
  destruct (C31_setActive n s2 l' H2) as (_ & Ib & _ & Lb & Vb & Ub & _).
  assert (E : forall i, In i (a_active (setActive s1 l)) <-> In i (a_active (setActive s2 l'))).
  { intros i. rewrite Ia, Ib. split; intros (A & B); split; auto; apply Hs; auto. }
  assert (En : a_active (setActive s1 l) = [] <-> a_active (setActive s2 l') = []).
  { split; intros Z; rewrite Z in E;
      [destruct (a_active (setActive s2 l')) as [|a x]|destruct (a_active (setActive s1 l)) as [|a x]]; auto;
      destruct (E a) as (P & Q); [destruct (Q (or_introl eq_refl))|destruct (P (or_introl eq_refl))]. }
  apply nth_ext with (d := 0) (d' := 0); [congruence|]. intros i Hi. rewrite La in Hi.
  specialize (Va i Hi). specialize (Vb i Hi). specialize (Ua i Hi). specialize (Ub i Hi). rewrite <- E, <- En in Ub.
  destruct Va as [Va|Va], Vb as [Vb|Vb]; rewrite Va, Vb in *; auto; intuition discriminate.
Qed.

(** C33: a non-empty list without a valid index activates nothing.  False: it activates all *)
Definition enabled (s : ASet) (i : nat) : Prop := nth i (a_usage s) 0 = 1.
Definition C33_claim : Prop := forall n l i, l <> [] -> (forall j, In j l -> n <= j) -> i < n ->
  ~ enabled (setActive (newASet n) l) i.
Theorem C33_refuted : ~ C33_claim.
Proof.
  intros H. apply (H 2 [7] 0); [discriminate| |lia|reflexivity]. intros j [<-|[]]. lia.
Qed.
(** what happens instead, always *)
Theorem C33_enables_everything_partial : forall n s0 l, reachable n s0 -> (forall j, In j l -> n <= j) ->
  (forall i, i < n -> enabled (setActive s0 l) i) /\ activeSize (setActive s0 l) = n.
Proof.
  intros n s0 l Hr Hl. destruct (C31_setActive n s0 l Hr) as (_ & Hin & _ & _ & _ & Hu & _).
  assert (E : a_active (setActive s0 l) = []).
  { destruct (a_active (setActive s0 l)) as [|a x]; auto. destruct (proj1 (Hin a) (or_introl eq_refl)) as (A & B).
    specialize (Hl a A). lia. }
  split.
  - intros i Hi. apply Hu; auto.
  - unfold activeSize. rewrite E. simpl. apply (reachable_inv _ _ Hr).
Qed.
(** with at least one valid index, exactly the valid indices of the list are enabled *)
Theorem C33_valid_partial : forall n s0 l, reachable n s0 -> (exists j, In j l /\ j < n) ->
  forall i, i < n -> (enabled (setActive s0 l) i <-> In i l).
Proof.
  intros n s0 l Hr (j & Hj & Hjn) i Hi. destruct (C31_setActive n s0 l Hr) as (_ & Hin & _ & _ & _ & Hu & _).
  unfold enabled. rewrite (Hu i Hi), Hin. split; [|tauto]. intros [E|?]; [|tauto].
  assert (In j (a_active (setActive s0 l))) as H by (apply Hin; auto). rewrite E in H. destruct H.
Qed.
