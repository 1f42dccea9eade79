(** Laws of exact timestamps, used as hypotheses of the exact-arithmetic theorems, and the
    integer instance (with infinity) used for concrete witnesses. *)
From Coq Require Import ZArith Bool Lia List Permutation Sorted.
From Verif Require Import Outcome FB_Model.
Import ListNotations.

(** Timestamps satisfying [fin] (the finite ones) form a total order with exact subtraction
    and addition. *)
Record ExactTime (TT : TimeOps) (fin : TT -> Prop) : Prop := {
  et_lt_not_le : forall a b : TT, tlt a b = true -> tle b a = false;
  et_lt_le : forall a b : TT, fin a -> fin b -> tlt a b = negb (tle b a);
  et_refl : forall a : TT, fin a -> tle a a = true;
  et_trans : forall a b c : TT, fin a -> fin b -> fin c ->
      tle a b = true -> tle b c = true -> tle a c = true;
  et_antisym : forall a b : TT, fin a -> fin b -> tle a b = true -> tle b a = true -> a = b;
  et_total : forall a b : TT, fin a -> fin b -> tle a b = true \/ tle b a = true;
  et_zero : fin tzero;
  et_one : fin tone;
  et_le_any : forall a b c : TT, fin a -> fin b -> tle c b = true -> tle b a = true -> tlt a c = false;
  et_add_sub : forall a b : TT, fin a -> fin b -> tadd a (tsub b a) = b;
  et_sub_nonneg : forall a b : TT, fin a -> fin b -> tle tzero (tsub b a) = tle a b;
  et_sub_pos : forall a b : TT, fin a -> fin b -> tlt tzero (tsub b a) = tlt a b;
  et_inf : forall a : TT, fin a -> tlt a tinf = true
}.

(** ** Exact integer time with +infinity *)
Inductive ztime : Type := ZFin (z : Z) | ZInf.

Definition ZTime : TimeOps := {|
  T := ztime;
  tlt a b := match a, b with
             | ZFin x, ZFin y => (x <? y)%Z | ZFin _, ZInf => true | ZInf, _ => false end;
  tle a b := match a, b with
             | ZFin x, ZFin y => (x <=? y)%Z | _, ZInf => true | ZInf, ZFin _ => false end;
  tsub a b := match a, b with ZFin x, ZFin y => ZFin (x - y) | _, _ => ZInf end;
  tadd a b := match a, b with ZFin x, ZFin y => ZFin (x + y) | _, _ => ZInf end;
  tzero := ZFin 0;
  tone := ZFin 1;
  tinf := ZInf
|}.

Definition zfin (a : ZTime) : Prop := exists z, a = ZFin z.

Lemma ZTime_exact : ExactTime ZTime zfin.
Proof.
  constructor; unfold zfin; simpl.
  - intros [x|] [y|]; try discriminate; auto. rewrite Z.ltb_lt, Z.leb_gt; auto.
  - intros ? ? [x ->] [y ->]. rewrite Z.leb_antisym, negb_involutive; reflexivity.
  - intros ? [x ->]. apply Z.leb_refl.
  - intros ? ? ? [x ->] [y ->] [z ->]. rewrite !Z.leb_le; lia.
  - intros ? ? [x ->] [y ->]. rewrite !Z.leb_le; intros; f_equal; lia.
  - intros ? ? [x ->] [y ->]. rewrite !Z.leb_le; lia.
  - eauto.
  - eauto.
  - intros ? ? [z|] [x ->] [y ->]; [rewrite !Z.leb_le, Z.ltb_ge; lia|discriminate].
  - intros ? ? [x ->] [y ->]. f_equal; lia.
  - intros ? ? [x ->] [y ->]. apply Bool.eq_iff_eq_true. rewrite !Z.leb_le; lia.
  - intros ? ? [x ->] [y ->]. apply Bool.eq_iff_eq_true. rewrite !Z.ltb_lt; lia.
  - intros ? [x ->]. reflexivity.
Qed.

(** ** Order lemmas *)
Section Order.
Context {TT : TimeOps} {fin : TT -> Prop} (H : ExactTime TT fin).

Lemma tlt_iff a b : fin a -> fin b -> (tlt a b = true <-> tle b a = false).
Proof. intros Ha Hb. rewrite (et_lt_le _ _ H a b Ha Hb). destruct (tle b a); simpl; split; congruence. Qed.

Lemma tlt_false_iff a b : fin a -> fin b -> (tlt a b = false <-> tle b a = true).
Proof. intros Ha Hb. rewrite (et_lt_le _ _ H a b Ha Hb). destruct (tle b a); simpl; split; congruence. Qed.

Lemma tlt_le a b : fin a -> fin b -> tlt a b = true -> tle a b = true.
Proof.
  intros Ha Hb Hl. apply (tlt_iff a b Ha Hb) in Hl.
  destruct (et_total _ _ H a b Ha Hb); congruence.
Qed.

Lemma tlt_irrefl a : fin a -> tlt a a = false.
Proof. intros Ha. apply (tlt_false_iff a a Ha Ha), (et_refl _ _ H a Ha). Qed.

Lemma tlt_le_trans a b c : fin a -> fin b -> fin c ->
  tlt a b = true -> tle b c = true -> tlt a c = true.
Proof.
  intros Ha Hb Hc H1 H2. destruct (tlt a c) eqn:E; [reflexivity|].
  apply (tlt_false_iff a c Ha Hc) in E. apply (tlt_iff a b Ha Hb) in H1.
  rewrite (et_trans _ _ H b c a Hb Hc Ha H2 E) in H1. discriminate.
Qed.

Lemma tle_lt_trans a b c : fin a -> fin b -> fin c ->
  tle a b = true -> tlt b c = true -> tlt a c = true.
Proof.
  intros Ha Hb Hc H1 H2. destruct (tlt a c) eqn:E; [reflexivity|].
  apply (tlt_false_iff a c Ha Hc) in E. apply (tlt_iff b c Hb Hc) in H2.
  rewrite (et_trans _ _ H c a b Hc Ha Hb E H1) in H2. discriminate.
Qed.

Lemma tlt_trans a b c : fin a -> fin b -> fin c ->
  tlt a b = true -> tlt b c = true -> tlt a c = true.
Proof. intros Ha Hb Hc H1 H2. apply (tlt_le_trans a b c); auto. apply tlt_le; auto. Qed.

Lemma tlt_asym a b : fin a -> fin b -> tlt a b = true -> tlt b a = false.
Proof. intros Ha Hb Hl. apply (tlt_false_iff b a Hb Ha), tlt_le; auto. Qed.

Lemma tle_lt_or_eq a b : fin a -> fin b -> tle a b = true -> tlt a b = true \/ a = b.
Proof.
  intros Ha Hb Hl. destruct (tlt a b) eqn:E; [auto|right].
  apply (tlt_false_iff a b Ha Hb) in E. apply (et_antisym _ _ H); auto.
Qed.

Lemma swo_ok_fin l : Forall fin l -> swo_ok l = true.
Proof.
  intros Hl. unfold swo_ok. rewrite Forall_forall in Hl.
  apply forallb_forall; intros a Ia.
  rewrite (tlt_irrefl a (Hl a Ia)); simpl.
  apply forallb_forall; intros b Ib. apply forallb_forall; intros c Ic.
  pose proof (Hl a Ia) as Ha. pose proof (Hl b Ib) as Hb. pose proof (Hl c Ic) as Hc.
  apply andb_true_intro; split.
  - destruct (tlt a b && tlt b c) eqn:E1; simpl; [|reflexivity].
    apply andb_prop in E1 as [E1 E2]. apply (tlt_trans a b c); auto.
  - destruct (tlt a b) eqn:E1; [reflexivity|]. destruct (tlt b a) eqn:E2; [reflexivity|].
    destruct (tlt b c) eqn:E3; [reflexivity|]. destruct (tlt c b) eqn:E4; [reflexivity|]. simpl.
    apply tlt_false_iff in E1; auto. apply tlt_false_iff in E2; auto.
    apply tlt_false_iff in E3; auto. apply tlt_false_iff in E4; auto.
    assert (A : tlt a c = false) by (apply tlt_false_iff; auto; eapply (et_trans _ _ H c b a); eauto).
    assert (B : tlt c a = false) by (apply tlt_false_iff; auto; eapply (et_trans _ _ H a b c); eauto).
    rewrite A, B; reflexivity.
Qed.

Lemma tmin_spec a b : fin a -> fin b ->
  (tmin a b = a \/ tmin a b = b) /\ tle (tmin a b) a = true /\ tle (tmin a b) b = true.
Proof.
  intros Ha Hb. unfold tmin. destruct (tlt b a) eqn:E.
  - repeat split; auto; [apply tlt_le; auto | apply (et_refl _ _ H); auto].
  - apply tlt_false_iff in E; auto. repeat split; auto. apply (et_refl _ _ H); auto.
Qed.

Lemma fold_tmin_fin l a : fin a -> Forall fin l ->
  fin (fold_left tmin l a) /\ (fold_left tmin l a = a \/ In (fold_left tmin l a) l)
  /\ tle (fold_left tmin l a) a = true
  /\ Forall (fun b => tle (fold_left tmin l a) b = true) l.
Proof.
  revert a; induction l as [|b l IH]; intros a Ha Hl; simpl.
  - repeat split; auto. apply (et_refl _ _ H); auto.
  - inversion Hl as [|b0 l0 Hb Hl']; subst.
    destruct (tmin_spec a b Ha Hb) as (Hor & Hla & Hlb).
    assert (Hm : fin (tmin a b)) by (destruct Hor as [->| ->]; auto).
    destruct (IH (tmin a b) Hm Hl') as (Hf & Hin & Hle & Hall).
    repeat split; auto.
    + destruct Hin as [Hin|Hin]; [|auto]. rewrite Hin. destruct Hor as [->| ->]; auto.
    + eapply (et_trans _ _ H _ (tmin a b)); eauto.
    + constructor; auto. eapply (et_trans _ _ H _ (tmin a b)); eauto.
Qed.

(** Starting from infinity, as processQueues does *)
Lemma fold_tmin_inf l : Forall fin l -> l <> [] ->
  In (fold_left tmin l tinf) l
  /\ Forall (fun b => tle (fold_left tmin l tinf) b = true) l.
Proof.
  destruct l as [|b l]; [congruence|]. intros Hl _. inversion Hl as [|b0 l0 Hb Hl']; subst.
  assert (Eb : tmin tinf b = b) by (unfold tmin; rewrite (et_inf _ _ H b Hb); reflexivity).
  simpl. rewrite Eb.
  destruct (fold_tmin_fin l b Hb Hl') as (Hf & Hin & Hle & Hall).
  split; [destruct Hin as [Hin|Hin]; [left; symmetry; exact Hin | right; exact Hin]|].
  constructor; auto.
Qed.
End Order.
