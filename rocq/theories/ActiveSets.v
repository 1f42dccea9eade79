(** Active index lists: FilterModel::setActiveStates (src/filters/filter_model.cpp:8-14, 25-61),
    SystemModel::setActiveControls (src/system_models/system_model.cpp:6-16, 23-61) and
    MeasurementModel::setActiveMeasurements (src/measurement_models/measurement_model.cpp:6-12,
    19-56).  The three pieces of code are the same up to names and are modelled once.

    Indices and dimensions are uint16_t; here nat, with the conversion to uint16_t written out
    where a larger number can occur (activeStateSize). *)
From Coq Require Import List Arith Bool Lia Permutation Sorted.
From Verif Require Import Outcome FB_Model.
Import ListNotations.

(** state_dims_, active_states_, state_usage_ (filter_model.h:130-138) *)
Record ASet : Type := mkASet {
  a_dims : nat;
  a_active : list nat;
  a_usage : list nat
}.

(** std::sort of integers: the result is unique, so any sorting function will do *)
Fixpoint ins (i : nat) (l : list nat) : list nat :=
  match l with
  | [] => [i]
  | j :: l' => if i <=? j then i :: l else j :: ins i l'
  end.
Definition sort_nat (l : list nat) : list nat := fold_right ins [] l.

(** filter_model.cpp:41-61.  The write [state_usage_[index] = 1] is in range because the indices
    were checked against state_dims_ (see C31_usage_in_range). *)
Definition setActive (s : ASet) (l : list nat) : ASet :=
  let act := filter (fun i => i <? a_dims s) l in
  let usage :=
    match act with
    | [] => repeat 1 (length (a_usage s))
    | _ => fold_left (fun us i => list_set us i 1) act (repeat 0 (length (a_usage s)))
    end in
  mkASet (a_dims s) (sort_nat act) usage.

(** filter_model.cpp:8-14 *)
Definition newASet (n : nat) : ASet := setActive (mkASet n [] (repeat 0 n)) [].

(** filter_model.cpp:29-31, conversion of size_t to uint16_t *)
Definition activeSize (s : ASet) : nat :=
  match a_active s with
  | [] => a_dims s
  | l => length l mod (2 ^ 16)
  end.

(** an object after any sequence of setActive... calls *)
Definition reachable (n : nat) (s : ASet) : Prop := exists ls, s = fold_left setActive ls (newASet n).

(** ** Proofs *)
Lemma ins_perm i l : Permutation (ins i l) (i :: l).
Proof.
  induction l as [|j l IH]; simpl; auto. destruct (i <=? j); auto.
  rewrite IH. apply perm_swap.
Qed.
Lemma sort_perm l : Permutation (sort_nat l) l.
Proof. induction l as [|i l IH]; simpl; auto. rewrite ins_perm, IH. auto. Qed.

Lemma ins_sorted i l : StronglySorted le l -> StronglySorted le (ins i l).
Proof.
  induction 1 as [|j l Hs IH Hj]; simpl; [repeat constructor|].
  destruct (Nat.leb_spec i j) as [Hle|Hlt].
  - constructor; [constructor; auto|]. constructor; auto. eapply Forall_impl; [|exact Hj]. simpl; lia.
  - constructor; auto. apply Forall_forall. intros a Ha.
    apply (Permutation_in _ (ins_perm i l)) in Ha. rewrite Forall_forall in Hj. destruct Ha as [<-|Ha]; auto; lia.
Qed.
Lemma sort_sorted l : StronglySorted le (sort_nat l).
Proof. induction l as [|i l IH]; simpl; [constructor|]. apply ins_sorted, IH. Qed.

Lemma sorted_unique l l' : StronglySorted le l -> StronglySorted le l' -> Permutation l l' -> l = l'.
Proof.
  intros Hs. revert l'. induction Hs as [|a l Hs IH Ha]; intros l' Hs' Hp.
  - apply Permutation_nil in Hp. auto.
  - destruct Hs' as [|b l' Hs' Hb]; [apply Permutation_sym, Permutation_nil in Hp; discriminate|].
    assert (a = b).
    { rewrite Forall_forall in Ha, Hb. apply Nat.le_antisymm.
      - destruct (Permutation_in b (Permutation_sym Hp) (or_introl eq_refl)) as [<-|H]; auto.
      - destruct (Permutation_in a Hp (or_introl eq_refl)) as [<-|H]; auto. }
    subst b. f_equal. apply IH; auto. apply Permutation_cons_inv in Hp. exact Hp.
Qed.

Lemma sort_perm_eq l l' : Permutation l l' -> sort_nat l = sort_nat l'.
Proof.
  intros Hp. apply sorted_unique; try apply sort_sorted. rewrite !sort_perm. exact Hp.
Qed.

Lemma filter_perm (f : nat -> bool) l l' : Permutation l l' -> Permutation (filter f l) (filter f l').
Proof.
  induction 1 as [|a l l' Hp IH|a b l|l1 l2 l3 H1 IH1 H2 IH2]; simpl; auto.
  - destruct (f a); auto.
  - destruct (f a), (f b); auto. apply perm_swap.
  - etransitivity; eauto.
Qed.

Lemma list_set_length {A} (l : list A) i a : length (list_set l i a) = length l.
Proof. revert i. induction l as [|b l IH]; intros [|i]; simpl; auto. Qed.
Lemma list_set_nth {A} (l : list A) i a j d : i < length l ->
  nth j (list_set l i a) d = if j =? i then a else nth j l d.
Proof.
  revert i j. induction l as [|b l IH]; intros [|i] [|j] Hi; simpl in *; try lia; auto.
  apply IH. lia.
Qed.

Definition mark (us : list nat) (act : list nat) : list nat := fold_left (fun us i => list_set us i 1) act us.
Lemma mark_length act : forall us, length (mark us act) = length us.
Proof. induction act as [|i act IH]; intros us; simpl; auto. unfold mark in *. simpl. rewrite IH. apply list_set_length. Qed.
Lemma mark_nth act : forall us j, Forall (fun i => i < length us) act ->
  nth j (mark us act) 0 = if existsb (Nat.eqb j) act then 1 else nth j us 0.
Proof.
  induction act as [|i act IH]; intros us j Hf; auto. inversion Hf as [|? ? Hi Hf']; subst.
  unfold mark in *. simpl. rewrite IH.
  - rewrite list_set_nth; auto. destruct (Nat.eqb_spec j i); simpl; auto. destruct (existsb _ act); auto.
  - rewrite list_set_length. exact Hf'.
Qed.

Lemma setActive_dims s l : a_dims (setActive s l) = a_dims s.
Proof. reflexivity. Qed.
Lemma setActive_usage_length s l : length (a_usage (setActive s l)) = length (a_usage s).
Proof.
  unfold setActive. simpl. destruct (filter _ l) as [|i act]; [apply repeat_length|].
  fold (mark (repeat 0 (length (a_usage s))) (i :: act)). change (fold_left (fun us i0 => list_set us i0 1) act (list_set (repeat 0 (length (a_usage s))) i 1)) with (mark (repeat 0 (length (a_usage s))) (i :: act)).
  rewrite mark_length, repeat_length. reflexivity.
Qed.
Lemma reachable_inv n s : reachable n s -> a_dims s = n /\ length (a_usage s) = n.
Proof.
  intros (ls & ->). revert n. 
  assert (H : forall ls s, a_dims (fold_left setActive ls s) = a_dims s /\ length (a_usage (fold_left setActive ls s)) = length (a_usage s)).
  { induction ls0 as [|l ls0 IH]; intros s; simpl; auto. destruct (IH (setActive s l)) as (A & B).
    rewrite A, B, setActive_usage_length. auto. }
  intros n. destruct (H ls (newASet n)) as (A & B). rewrite A, B. unfold newASet.
  rewrite setActive_usage_length. simpl. rewrite repeat_length. auto.
Qed.
