(** Lemmas on the six_d_rates models over R used for the filters running on them. *)
From Coq Require Import Reals Lra List Lia Bool Arith.
From Coquelicot Require Import Coquelicot.
From Verif Require Import Outcome ActiveSets Geo Integration Props_Integration Transform SixD Props_SixD Props_SixDArith Props_SixDMeas Props_SixDJac.
Import ListNotations.
Open Scope R_scope.

Lemma addState_gravity a b : norm (seg (s6_addState a b) s6_GX) = g_std \/ seg (s6_addState a b) s6_GX = vzero.
Proof.
  unfold s6_addState. rewrite renorm_gravity. set (v := seg _ _).
  destruct (Req_dec (norm v) 0) as [Z|N].
  - apply norm_0 in Z. rewrite Z, normalized_zero. right. v3.
  - left. rewrite norm_scale, normalized_norm, Rabs_pos_eq by (try (pose proof gstd_pos; lra); intros E; apply N; rewrite E; apply norm_zero). ring.
Qed.
Lemma predict_keeps_gravity u x dt : norm (seg x s6_GX) = g_std \/ seg x s6_GX = vzero ->
  norm (seg (s6_predict u x dt) s6_GX) = g_std \/ seg (s6_predict u x dt) s6_GX = vzero.
Proof.
  intros H. unfold s6_GX. rewrite predict_gravity. destruct (_ && _); [|exact H].
  destruct H as [H|H]; [left|right].
  - rewrite <- H. apply C60_length.
  - unfold s6_GX in H. rewrite H. apply norm_0. etransitivity; [apply C60_length|apply norm_zero].
Qed.
(** the rows of the biases: never written *)
Lemma mput_row_other m i j v a b : a <> i -> mput_row m i j v a b = m a b.
Proof. intros H. unfold mput_row, mput. apply Nat.eqb_neq in H. rewrite H. reflexivity. Qed.
Lemma put_block_other_row m i j B a b : (a < i \/ i + 2 < a)%nat -> put_block m i j B a b = m a b.
Proof. intros H. unfold put_block. rewrite !mput_row_other by lia. reflexivity. Qed.
Lemma mput_other_row m i j v a b : a <> i -> mput m i j v a b = m a b.
Proof. intros H. unfold mput. apply Nat.eqb_neq in H. rewrite H. reflexivity. Qed.
Lemma noise_bias_row P x dt i j : (11 < i)%nat -> s6_noise_jacobian P x dt i j = P i j.
Proof.
  intros H. unfold s6_noise_jacobian, s6_VX, s6_AX, s6_VPHI, s6_GX. cbv zeta.
  rewrite put_block_other_row by lia. rewrite !mput_other_row by lia. reflexivity.
Qed.
Lemma jacobian_bias_row G x dt i j : (11 < i)%nat -> s6_jacobian G x dt i j = G i j.
Proof.
  intros H. rewrite jacobian_row by lia. destruct (Nat.ltb_spec i 3); [lia|reflexivity].
Qed.
(** all entries of the process noise Jacobian outside the gravity rows *)
Definition noise_entry (dt : R) (i j : nat) : R :=
  if Nat.ltb i 3 then if Nat.eqb j i || Nat.eqb j (i + 3) then 1 / 2 * (dt * dt) else 0
  else if Nat.ltb i 6 then if Nat.eqb j (i - 3) || Nat.eqb j i then dt else 0
  else if Nat.ltb i 9 then if Nat.eqb j i || Nat.eqb j (i + 3) then dt else 0
  else 0.
Lemma noise_row P x dt i j : (i < 9)%nat -> s6_noise_jacobian P x dt i j =
  if Nat.ltb i 3 then if Nat.eqb j i || Nat.eqb j (i + 3) then 1 / 2 * (dt * dt) else P i j
  else if Nat.ltb i 6 then if Nat.eqb j (i - 3) || Nat.eqb j i then dt else P i j
  else if Nat.eqb j i || Nat.eqb j (i + 3) then dt else P i j.
Proof.
  intros H. unfold s6_noise_jacobian, s6_VX, s6_AX, s6_VPHI, s6_GX. cbv zeta. rewrite put_block_other_row by lia.
  do 9 (destruct i as [|i]; [unfold mput; cbn [Nat.eqb Nat.ltb Nat.leb Nat.add Nat.sub andb];
     repeat match goal with |- context [Nat.eqb j ?k] => destruct (Nat.eqb_spec j k); [subst j; cbn [Nat.eqb orb]; try reflexivity|] end; try reflexivity; lia|]). lia.
Qed.
Lemma noise_gravity_row P x dt i j : (8 < i < 12)%nat -> (j < 12)%nat -> s6_noise_jacobian P x dt i j = P i j.
Proof.
  intros H Hj. unfold s6_noise_jacobian, s6_VX, s6_AX, s6_VPHI, s6_GX. cbv zeta. unfold put_block, mput_row.
  unfold mput. destruct (Nat.eqb_spec j 12), (Nat.eqb_spec j (12 + 1)), (Nat.eqb_spec j (12 + 2)); try lia.
  rewrite !andb_false_r. do 9 (destruct i as [|i]; [lia|]). do 3 (destruct i as [|i]; [reflexivity|]). lia.
Qed.
Lemma predict_bias u x dt i : (11 < i)%nat -> s6_predict u x dt i = x i.
Proof. intros H. apply predict_other. lia. Qed.
Lemma noise_columns P x dt : (forall i j, (j < 3)%nat -> P i (j + 3)%nat = P i j /\ P i (j + 9)%nat = P i (j + 6)%nat) ->
  forall i j, (j < 3)%nat -> s6_noise_jacobian P x dt i (j + 3)%nat = s6_noise_jacobian P x dt i j
    /\ s6_noise_jacobian P x dt i (j + 9)%nat = s6_noise_jacobian P x dt i (j + 6)%nat.
Proof.
  intros H i j Hj. destruct (H i j Hj) as [H1 H2]. destruct (le_lt_dec 9 i) as [Hi|Hi].
  - destruct (le_lt_dec 12 i) as [Hi'|Hi'].
    + rewrite !noise_bias_row by lia. auto.
    + rewrite !noise_gravity_row by lia. auto.
  - rewrite !noise_row by exact Hi.
    do 9 (destruct i as [|i]; [do 3 (destruct j as [|j]; [cbn [Nat.eqb Nat.ltb Nat.leb Nat.add Nat.sub orb] in *; auto|]); lia|]). lia.
Qed.
(** sums and differences with zero, and weighted sums of copies *)
Lemma renorm_id x : std_gravity x -> forall i, renorm x i = x i.
Proof.
  rewrite std_gravity_def. intros H i. destruct (le_lt_dec i 8); [apply renorm_other; lia|]. destruct (le_lt_dec 12 i); [apply renorm_other; lia|].
  pose proof (renorm_gravity x) as E. rewrite (renorm_std _ H) in E. apply seg_eq in E. unfold s6_GX in E. cbn [Nat.add] in E. destruct E as (E1 & E2 & E3).
  assert (i = 9 \/ i = 10 \/ i = 11)%nat as [-> | [-> | ->]] by lia; assumption.
Qed.
Lemma seg_ext (a b : vecn) k : a k = b k -> a (k + 1)%nat = b (k + 1)%nat -> a (k + 2)%nat = b (k + 2)%nat -> seg a k = seg b k.
Proof. intros E1 E2 E3. unfold seg. rewrite E1, E2, E3. reflexivity. Qed.
Lemma std_gravity_ext a b : (forall i, a i = b i) -> std_gravity b -> std_gravity a.
Proof. unfold std_gravity. intros E H. rewrite <- H. f_equal. apply seg_ext; apply E. Qed.
Lemma renorm_ext a b : (forall i, a i = b i) -> forall i, renorm a i = renorm b i.
Proof.
  intros E i. unfold renorm. replace (seg a s6_GX) with (seg b s6_GX) by (symmetry; apply seg_ext; apply E).
  unfold put_seg, put. rewrite E. reflexivity.
Qed.
Lemma addState_zero x z : std_gravity x -> (forall i, z i = 0) -> forall i, s6_addState x z i = x i.
Proof. intros H Z i. unfold s6_addState. rewrite (renorm_ext _ x); [apply renorm_id, H|]. intros j. rewrite Z. ring. Qed.
Lemma subtractState_zero x z : std_gravity x -> (forall i, z i = 0) -> forall i, s6_subtractState x z i = x i.
Proof. intros H Z i. unfold s6_subtractState. rewrite (renorm_ext _ x); [apply renorm_id, H|]. intros j. rewrite Z. ring. Qed.
Lemma sum_copies w x : std_gravity x -> exists s, s6_weightedSumOfStates w (repeat x (length w)) = Ok s
  /\ seg s s6_GX = vscale (fold_right (fun c a => sgn c + a) 0 w) (seg x s6_GX)
  /\ forall i, (i < 9 \/ 11 < i)%nat -> s i = total w * x i.
Proof.
  intros H. destruct (C71_sum_gravity_partial w x H) as (s & E & G). exists s. split; [exact E|split; [exact G|]]. intros i Hi.
  destruct (C71_sum_others_partial w (repeat x (length w)) i) as (s' & E' & R); [symmetry; apply repeat_length|exact Hi|].
  rewrite E in E'. injection E' as <-. rewrite R. clear. induction w as [|c w IH]; cbn [combine repeat length fold_right total fst snd]; [ring|].
  rewrite IH. ring.
Qed.
(** the difference between a state and a sum of f > 1 copies of it (weights adding to 1) *)
Lemma sub_copies x s f : std_gravity x -> 1 < f -> seg s s6_GX = vscale f (seg x s6_GX) ->
  (forall i, (i < 9 \/ 11 < i)%nat -> s i = x i) ->
  (forall i, (i < 9 \/ 11 < i)%nat -> s6_subtractState x s i = 0) /\ seg (s6_subtractState x s) s6_GX = vscale (-1) (seg x s6_GX).
Proof.
  intros H Hf G O. split.
  - intros i Hi. unfold s6_subtractState. rewrite renorm_other by exact Hi. rewrite O by exact Hi. ring.
  - unfold s6_subtractState. rewrite renorm_gravity. change (seg (fun i => x i - s i) s6_GX) with (vsub (seg x s6_GX) (seg s s6_GX)). rewrite G.
    replace (vsub (seg x s6_GX) (vscale f (seg x s6_GX))) with (vscale (1 - f) (seg x s6_GX)) by (generalize (seg x s6_GX); intros; v3).
    rewrite std_gravity_def in H. revert H. generalize (seg x s6_GX). intros v Hv. pose proof gstd_pos.
    unfold normalized. rewrite norm_scale. assert (norm2 (vscale (1 - f) v) = (1 - f) * (1 - f) * (g_std * g_std)) as -> by (rewrite <- Hv, norm_sq; gunf; ring). rewrite Hv.
    destruct (Rlt_dec _ _) as [|Q]; [|exfalso; apply Q; apply Rmult_lt_0_compat; [nra|apply Rmult_lt_0_compat; lra]].
    rewrite Rabs_left by lra. apply V3_eq; gunf; field; lra.
Qed.
Lemma predict_std u x dt : std_gravity x -> std_gravity (s6_predict u x dt).
Proof.
  rewrite !std_gravity_def. intros H. unfold s6_GX in *. rewrite predict_gravity. destruct (_ && _); [|exact H].
  rewrite <- H. apply C60_length.
Qed.
Lemma seg_neg (d x : vecn) : seg d s6_GX = vscale (-1) (seg x s6_GX) -> forall i, (8 < i < 12)%nat -> d i = - x i.
Proof.
  unfold seg, s6_GX. intros E i Hi. injection E as A B C. cbn in A, B, C.
  assert (i = 9 \/ i = 10 \/ i = 11)%nat as [-> | [-> | ->]] by lia; lra.
Qed.
