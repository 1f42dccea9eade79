(** C69 - C72 and C36: the six_d_rates models. *)
From Coq Require Import Reals Lra Psatz List Lia Bool Arith.
From Coquelicot Require Import Coquelicot.
From Verif Require Import Outcome ActiveSets Props_ActiveSets Geo Integration Props_Integration Transform Props_Transform Props_Imu SixD.
Import ListNotations.
Open Scope R_scope.

(** ** C69 *)
Lemma put_same x i v : put x i v i = v.
Proof. unfold put. rewrite Nat.eqb_refl. reflexivity. Qed.
Lemma put_other x i v j : j <> i -> put x i v j = x j.
Proof. unfold put. intros H. apply Nat.eqb_neq in H. rewrite H. reflexivity. Qed.
Lemma put_seg_other x i v j : (j < i \/ i + 2 < j)%nat -> put_seg x i v j = x j.
Proof. intros H. unfold put_seg. rewrite !put_other by lia. reflexivity. Qed.
Lemma seg_put_seg x i v : seg (put_seg x i v) i = v.
Proof.
  unfold seg, put_seg. rewrite put_other, put_other, put_same, put_other, put_same, put_same by lia. destruct v; reflexivity.
Qed.
Lemma seg_put_other x i j v : (i + 2 < j \/ j < i)%nat -> seg (put x j v) i = seg x i.
Proof. intros H. unfold seg. rewrite !put_other by lia. reflexivity. Qed.

Lemma predict_other u x dt i : (2 < i < 9 \/ 11 < i)%nat -> s6_predict u x dt i = x i.
Proof.
  intros H. unfold s6_predict, s6_GX, s6_VX. destruct (u 9%nat && u (9 + 1)%nat && u (9 + 2)%nat); cbv zeta.
  - rewrite put_seg_other, !put_other by lia. reflexivity.
  - rewrite !put_other by lia. reflexivity.
Qed.
Lemma predict_gravity u x dt : seg (s6_predict u x dt) 9 =
  if u 9%nat && u 10%nat && u 11%nat then qrot (deltaQuaternion dt (seg x 6)) (seg x 9) else seg x 9.
Proof.
  unfold s6_predict, s6_GX, s6_VX, s6_VPHI. cbv zeta. cbn [Nat.add]. destruct (u 9%nat && u 10%nat && u 11%nat).
  - apply seg_put_seg.
  - rewrite !seg_put_other by lia. reflexivity.
Qed.
Lemma predict_velocity u x dt : let dv := integrateVelocityRK4 dt (seg x 3) (seg x 6) vzero in
  s6_predict u x dt 0%nat = x 0%nat + b2r (u 0%nat) * vx dv
  /\ s6_predict u x dt 1%nat = x 1%nat + b2r (u 1%nat) * vy dv
  /\ s6_predict u x dt 2%nat = x 2%nat + b2r (u 2%nat) * vz dv.
Proof.
  unfold s6_predict, s6_GX, s6_VX, s6_VPHI, s6_AX. cbv zeta. cbn [Nat.add]. destruct (u 9%nat && u 10%nat && u 11%nat);
  rewrite ?put_seg_other by lia; repeat split;
  repeat first [rewrite put_same; try reflexivity | rewrite put_other by lia].
Qed.

(** everything about one prediction, for every set of active states that can be chosen *)
Theorem C69_prediction (m : SixDRates) (x : vecn) (dt : R) :
  let x' := s6_g (s6_update m x dt) in
  seg x' s6_AX = seg x s6_AX /\ seg x' s6_VPHI = seg x s6_VPHI
  /\ seg x' s6_BAX = seg x s6_BAX /\ seg x' s6_BWX = seg x s6_BWX
  /\ norm (seg x' s6_GX) = norm (seg x s6_GX)
  /\ norm (vsub (seg x' s6_VX) (seg x s6_VX)) <= Rabs dt * norm (seg x s6_AX)
  /\ (forall i, usage_of (s6_set m) i = false -> x' i = x i).
Proof.
  cbv zeta. cbn [s6_update s6_g]. set (u := usage_of (s6_set m)). clearbody u.
  assert (forall i, (2 < i < 9 \/ 11 < i)%nat -> s6_predict u x dt i = x i) as Ho by (intros; apply predict_other; auto).
  destruct (predict_velocity u x dt) as (V0 & V1 & V2). set (dv := integrateVelocityRK4 dt (seg x 3) (seg x 6) vzero) in *.
  pose proof (predict_gravity u x dt) as Hg.
  split; [|split; [|split; [|split; [|split; [|split]]]]].
  - unfold seg, s6_AX. rewrite !Ho by lia. reflexivity.
  - unfold seg, s6_VPHI. rewrite !Ho by lia. reflexivity.
  - unfold seg, s6_BAX. rewrite !Ho by lia. reflexivity.
  - unfold seg, s6_BWX. rewrite !Ho by lia. reflexivity.
  - unfold s6_GX. rewrite Hg. destruct (u 9%nat && u 10%nat && u 11%nat); [apply C60_length|reflexivity].
  - eapply Rle_trans; [|apply (C61_no_overshoot dt (seg x s6_AX) (seg x s6_VPHI))].
    change (integrateVelocityRK4 dt (seg x s6_AX) (seg x s6_VPHI) vzero) with dv.
    unfold norm. apply sqrt_le_1_alt. unfold seg, s6_VX, vsub, norm2, dot; cbn [vx vy vz Nat.add]. rewrite V0, V1, V2.
    assert (forall b y z, (z + b2r b * y - z) * (z + b2r b * y - z) <= y * y) as S.
    { intros b y z. pose proof (Rle_0_sqr y). unfold Rsqr in *. destruct b; unfold b2r; lra. }
    pose proof (S (u 0%nat) (vx dv) (x 0%nat)). pose proof (S (u 1%nat) (vy dv) (x 1%nat)). pose proof (S (u 2%nat) (vz dv) (x 2%nat)).
    lra.
  - intros i Hi. destruct (Nat.eq_dec i 0) as [->|N0]; [rewrite V0, Hi; unfold b2r; ring|].
    destruct (Nat.eq_dec i 1) as [->|N1]; [rewrite V1, Hi; unfold b2r; ring|].
    destruct (Nat.eq_dec i 2) as [->|N2]; [rewrite V2, Hi; unfold b2r; ring|].
    destruct (le_lt_dec i 8) as [|]; [apply Ho; lia|]. destruct (le_lt_dec 12 i) as [|]; [apply Ho; lia|].
    assert (u 9%nat && u 10%nat && u 11%nat = false) as E.
    { assert (i = 9 \/ i = 10 \/ i = 11)%nat as [-> | [-> | ->]] by lia; rewrite Hi, ?andb_false_r; reflexivity. }
    rewrite E in Hg. unfold seg in Hg. cbn [Nat.add] in Hg. injection Hg as G0 G1 G2.
    assert (i = 9 \/ i = 10 \/ i = 11)%nat as [-> | [-> | ->]] by lia; assumption.
Qed.
Theorem C69_zero_time (m : SixDRates) (x : vecn) (i : nat) : s6_g (s6_update m x 0) i = x i.
Proof.
  cbn [s6_update s6_g]. set (u := usage_of (s6_set m)). clearbody u.
  destruct (predict_velocity u x 0) as (V0 & V1 & V2). pose proof (predict_gravity u x 0) as Hg.
  assert (integrateVelocityRK4 0 (seg x 3) (seg x 6) vzero = vzero) as Z by (rewrite C61_simpson; apply V3_eq; gunf; field).
  rewrite Z in V0, V1, V2. cbn [vx vy vz vzero] in V0, V1, V2. rewrite C59_zero_time, qrot_id in Hg.
  destruct (Nat.eq_dec i 0) as [->|N0]; [rewrite V0; ring|].
  destruct (Nat.eq_dec i 1) as [->|N1]; [rewrite V1; ring|].
  destruct (Nat.eq_dec i 2) as [->|N2]; [rewrite V2; ring|].
  destruct (le_lt_dec i 8) as [|]; [apply predict_other; lia|]. destruct (le_lt_dec 12 i) as [|]; [apply predict_other; lia|].
  assert (seg (s6_predict u x 0) 9 = seg x 9) as E by (rewrite Hg; destruct (_ && _); reflexivity).
  unfold seg in E. cbn [Nat.add] in E. injection E as G0 G1 G2.
  assert (i = 9 \/ i = 10 \/ i = 11)%nat as [-> | [-> | ->]] by lia; assumption.
Qed.
(** in terms of the call setActiveStates(l): states that are not listed stay *)
Theorem C69_inactive (m : SixDRates) (l : list nat) (x : vecn) (dt : R) (i : nat) : reachable s6_DIMS (s6_set m) ->
  (exists j, In j l /\ (j < s6_DIMS)%nat) -> (i < s6_DIMS)%nat -> ~ In i l ->
  s6_g (s6_update (s6_setActiveStates m l) x dt) i = x i.
Proof.
  intros Hr Hj Hi Hn. destruct (C69_prediction (s6_setActiveStates m l) x dt) as (_ & _ & _ & _ & _ & _ & H). apply H. clear H.
  cbn [s6_setActiveStates s6_set]. unfold usage_of.
  pose proof (C33_valid_partial _ _ _ Hr Hj i Hi) as E. unfold enabled in E.
  destruct (C31_setActive _ _ l Hr) as (_ & _ & _ & _ & H01 & _). destruct (H01 i Hi) as [H1|H0].
  - exfalso. tauto.
  - rewrite H0. reflexivity.
Qed.
(** over any number of predictions the magnitude of gravity, the rates and the biases stay *)
Definition s6_run (m : SixDRates) (dts : list R) (x : vecn) : vecn := fold_left (fun x dt => s6_g (s6_update m x dt)) dts x.
Theorem C69_run (m : SixDRates) (dts : list R) (x : vecn) :
  norm (seg (s6_run m dts x) s6_GX) = norm (seg x s6_GX) /\ seg (s6_run m dts x) s6_AX = seg x s6_AX
  /\ seg (s6_run m dts x) s6_VPHI = seg x s6_VPHI /\ seg (s6_run m dts x) s6_BAX = seg x s6_BAX /\ seg (s6_run m dts x) s6_BWX = seg x s6_BWX
  /\ norm (vsub (seg (s6_run m dts x) s6_VX) (seg x s6_VX)) <= fold_right (fun dt s => Rabs dt + s) 0 dts * norm (seg x s6_AX).
Proof.
  unfold s6_run. revert x. induction dts as [|dt dts IH]; intros x; cbn [fold_left fold_right].
  - replace (vsub (seg x s6_VX) (seg x s6_VX)) with vzero by v3. rewrite norm_zero. repeat split; try reflexivity. lra.
  - destruct (IH (s6_g (s6_update m x dt))) as (I1 & I2 & I3 & I4 & I5 & I6).
    destruct (C69_prediction m x dt) as (P1 & P2 & P3 & P4 & P5 & P6 & _).
    set (x1 := s6_g (s6_update m x dt)) in *. rewrite I1, I2, I3, I4, I5. split; [auto|]. split; [auto|]. split; [auto|]. split; [auto|]. split; [auto|].
    replace (vsub (seg (fold_left (fun x dt => s6_g (s6_update m x dt)) dts x1) s6_VX) (seg x s6_VX))
      with (vadd (vsub (seg (fold_left (fun x dt => s6_g (s6_update m x dt)) dts x1) s6_VX) (seg x1 s6_VX)) (vsub (seg x1 s6_VX) (seg x s6_VX))).
    2:{ generalize (seg (fold_left (fun x dt => s6_g (s6_update m x dt)) dts x1) s6_VX) (seg x1 s6_VX) (seg x s6_VX). intros. v3. }
    eapply Rle_trans; [apply norm_triangle|]. rewrite P1 in I6. lra.
Qed.
Example C69_nonvacuous : reachable s6_DIMS (s6_set (s6_new true true)) /\
  s6_g (s6_update (s6_new true true) (fun i => if Nat.eqb i 3 then 2 else 0) (1 / 2)) 0%nat = 1.
Proof.
  split; [exists []; reflexivity|]. cbn [s6_update s6_g]. destruct (predict_velocity (usage_of (s6_set (s6_new true true))) (fun i => if Nat.eqb i 3 then 2 else 0) (1 / 2)) as (V & _ & _).
  rewrite V. change (usage_of (s6_set (s6_new true true)) 0%nat) with true. unfold seg; cbn [Nat.add Nat.eqb].
  change (mkV 0 0 0) with vzero. rewrite C61_no_rotation. unfold b2r. gunf. field.
Qed.

(** ** C70 *)
Lemma mput_same m i j v : mput m i j v i j = v.
Proof. unfold mput. rewrite !Nat.eqb_refl. reflexivity. Qed.
Lemma mput_other m i j v a b : a <> i \/ b <> j -> mput m i j v a b = m a b.
Proof. unfold mput. intros [H|H]; apply Nat.eqb_neq in H; rewrite H, ?andb_false_r; reflexivity. Qed.
Lemma get_put_block m i j b : get_block (put_block m i j b) i j = b.
Proof.
  unfold get_block, put_block, mput_row.
  repeat first [rewrite mput_same | rewrite mput_other by lia]. destruct b as [[] [] []]; reflexivity.
Qed.
Definition gravity_block (m : SixDRates) : M3 := get_block (s6_G m) s6_GX s6_GX.
(** the state with its gravity changed by s d *)
Definition move_gravity (x : vecn) (s : R) (d : V3) : vecn := put_seg x s6_GX (vadd (seg x s6_GX) (vscale s d)).
Definition C70_claim : Prop := forall (m : SixDRates) (x : vecn) (dt : R) (d : V3), s6_cj m = true -> (forall i, (i < s6_DIMS)%nat -> usage_of (s6_set m) i = true) ->
  is_vderive (fun s => seg (s6_g (s6_update m (move_gravity x s d) dt)) s6_GX) 0 (mvec (gravity_block (s6_update m x dt)) d).

Lemma moved_gravity m x s d dt : (forall i, (i < s6_DIMS)%nat -> usage_of (s6_set m) i = true) ->
  seg (s6_g (s6_update m (move_gravity x s d) dt)) s6_GX = vadd (qrot (deltaQuaternion dt (seg x s6_VPHI)) (seg x s6_GX)) (vscale s (qrot (deltaQuaternion dt (seg x s6_VPHI)) d)).
Proof.
  intros Hu. cbn [s6_update s6_g]. unfold s6_GX. rewrite predict_gravity, !Hu by (unfold s6_DIMS; lia). cbn [andb].
  assert (seg (move_gravity x s d) 6 = seg x 6) as -> by (unfold seg, move_gravity, s6_GX; rewrite !put_seg_other by lia; reflexivity).
  unfold move_gravity, s6_GX. rewrite seg_put_seg, qrot_add, qrot_scale. reflexivity.
Qed.
(** the true derivative is the rotation of the step *)
Theorem C70_true_derivative (m : SixDRates) (x : vecn) (dt : R) (d : V3) : (forall i, (i < s6_DIMS)%nat -> usage_of (s6_set m) i = true) ->
  is_vderive (fun s => seg (s6_g (s6_update m (move_gravity x s d) dt)) s6_GX) 0 (qrot (deltaQuaternion dt (seg x s6_VPHI)) d).
Proof. intros Hu. eapply vderive_ext; [intros s; symmetry; apply moved_gravity, Hu|]. apply vderive_lin. Qed.
(** what the code computes: off by 2|v|^2 I - v v' *)
Theorem C70_block_partial (m : SixDRates) (x : vecn) (dt : R) (d : V3) : s6_cj m = true ->
  let v := qvec (deltaQuaternion dt (seg x s6_VPHI)) in
  mvec (gravity_block (s6_update m x dt)) d =
  vadd (qrot (deltaQuaternion dt (seg x s6_VPHI)) d) (vsub (vscale (2 * dot v v) d) (vscale (dot v d) v)).
Proof.
  intros Hc. cbv zeta. unfold gravity_block, s6_update. cbn [s6_G]. rewrite Hc. unfold s6_jacobian. cbv zeta. rewrite get_put_block.
  rewrite qrot_unit by apply C59_unit. generalize (deltaQuaternion dt (seg x s6_VPHI)). intros q.
  rewrite !mvec_madd.
  assert (forall k, mvec (mscale k mid) d = vscale k d) as E1 by (intros; v3).
  assert (forall v, mvec (outer v v) d = vscale (dot v d) v) as E2 by (intros; v3).
  assert (forall k v, mvec (mscale k (skew v)) d = vscale k (cross v d)) as E3 by (intros; v3).
  rewrite E1, E2, E3. unfold qsand, norm2. generalize (dot (qvec q) (qvec q)) (dot (qvec q) d) (cross (qvec q) d) (qvec q). intros. v3.
Qed.
Lemma new_usage cj uc i : (i < s6_DIMS)%nat -> usage_of (s6_set (s6_new cj uc)) i = true.
Proof. unfold s6_DIMS. intros H. do 18 (destruct i; [reflexivity|]). lia. Qed.
Theorem C70_refuted : ~ C70_claim.
Proof.
  intros H. set (x := fun i : nat => if Nat.eqb i 8 then PI else 0). set (m := s6_new true true).
  assert (seg x s6_VPHI = mkV 0 0 PI) as Ex by reflexivity.
  destruct (C59_nonvacuous) as (_ & Eq).
  assert (mvec (gravity_block (s6_update m x 1)) (mkV 0 0 1) = mkV 0 0 2) as E by (rewrite C70_block_partial, Ex, Eq by reflexivity; v3).
  pose proof (C67_unique _ _ _ _ (H m x 1 (mkV 0 0 1) eq_refl (new_usage true true)) (C70_true_derivative m x 1 (mkV 0 0 1) (new_usage true true))) as U.
  rewrite E, Ex, Eq in U. apply (f_equal vz) in U. revert U. gunf. lra.
Qed.
(** it is the derivative exactly when the step does not rotate at all *)
Theorem C70_exact_iff_partial (m : SixDRates) (x : vecn) (dt : R) : s6_cj m = true -> (forall i, (i < s6_DIMS)%nat -> usage_of (s6_set m) i = true) ->
  ((forall d, is_vderive (fun s => seg (s6_g (s6_update m (move_gravity x s d) dt)) s6_GX) 0 (mvec (gravity_block (s6_update m x dt)) d))
   <-> qvec (deltaQuaternion dt (seg x s6_VPHI)) = vzero).
Proof.
  intros Hc Hu. set (q := deltaQuaternion dt (seg x s6_VPHI)).
  assert (forall d, is_vderive (fun s => seg (s6_g (s6_update m (move_gravity x s d) dt)) s6_GX) 0 (mvec (gravity_block (s6_update m x dt)) d)
     <-> vsub (vscale (2 * dot (qvec q) (qvec q)) d) (vscale (dot (qvec q) d) (qvec q)) = vzero) as E.
  { intros d. rewrite C70_block_partial by exact Hc. cbv zeta. fold q.
    pose proof (C70_true_derivative m x dt d Hu) as T. fold q in T.
    set (e := vsub _ _). split; intros K.
    - pose proof (C67_unique _ _ _ _ K T) as U. clear - U. revert U. generalize (qrot q d) e. intros a b U.
      pose proof (f_equal vx U). pose proof (f_equal vy U). pose proof (f_equal vz U). apply V3_eq; revert H H0 H1; gunf; lra.
    - rewrite K. replace (vadd (qrot q d) vzero) with (qrot q d); [exact T|]. generalize (qrot q d). intros. v3. }
  split.
  - intros H. specialize (proj1 (E (qvec q)) (H (qvec q))) as K. apply norm2_0.
    clear E H. revert K. generalize (qvec q). intros v K.
    assert (vscale (norm2 v) v = vzero) as S by (rewrite <- K; v3).
    assert (norm2 v * norm2 v = 0) as Z.
    { assert (dot v (vscale (norm2 v) v) = dot v vzero) as S' by (rewrite S; reflexivity).
      transitivity (dot v (vscale (norm2 v) v)); [gunf; ring|]. rewrite S'. gunf. ring. }
    destruct (Rmult_integral _ _ Z); auto.
  - intros H d. apply E. rewrite H. v3.
Qed.

