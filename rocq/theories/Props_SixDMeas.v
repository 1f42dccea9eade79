(** The measurement models of six_d_rates and their Jacobians (C72, C36). *)
From Coq Require Import Reals Lra Lia List Bool Arith.
From Coquelicot Require Import Coquelicot.
From Verif Require Import Outcome ActiveSets Geo Integration Props_Integration Transform Props_Transform Props_Imu SixD Props_SixD.
Import ListNotations.
Open Scope R_scope.

(** ** C72 and C36 *)
Fixpoint rsum (n : nat) (f : nat -> R) : R := match n with O => 0 | S k => rsum k f + f k end.
(** H x *)
Definition mat_vec (H : matn) (x : vecn) (i : nat) : R := rsum s6_DIMS (fun j => H i j * x j).
(** the matrix H is the derivative of h at x *)
Definition jacobian_of (h : vecn -> vecn) (k : nat) (x : vecn) (H : matn) : Prop :=
  forall (d : vecn) (i : nat), (i < k)%nat -> is_derive (fun s => h (fun j => x j + s * d j) i) 0 (mat_vec H d i).
(** a model object after construction (with Jacobian) and any calls of setTf *)
Definition imu_after (tfs : list Iso) : Meas6 := fold_left (setTf imu_post) tfs (imu_new true).
Definition odom_after (tfs : list Iso) : Meas6 := fold_left (setTf odom_post) tfs (odom_new true).

Lemma v3_dec_spec a b : v3_dec a b = true <-> a = b.
Proof.
  unfold v3_dec. destruct (Req_EM_T (vx a) (vx b)) as [X|X]; [destruct (Req_EM_T (vy a) (vy b)) as [Y|Y]; [destruct (Req_EM_T (vz a) (vz b)) as [Z|Z]|]|];
  split; intros E; try discriminate; try reflexivity; try (subst; tauto). apply V3_eq; assumption.
Qed.
Lemma is_identity_spec tf : is_identity tf = true <-> tf = iso_id.
Proof.
  unfold is_identity. rewrite !andb_true_iff, !v3_dec_spec. split.
  - intros (((A & B) & C) & D). destruct tf as [m t]. cbn [iR it] in *. unfold iso_id. f_equal; [|exact D]. apply M3_eq; assumption.
  - intros ->. auto.
Qed.
Definition agree (k : nat) (A B : matn) : Prop := forall i j, (i < k)%nat -> (j < s6_DIMS)%nat -> A i j = B i j.


(** a chain of block writes, and the entries it leaves alone *)
Definition imuF (A : matn) (R : M3) : matn :=
  put_block (put_block (put_block (put_block (put_block A 0 s6_AX R) 0 s6_BAX (mscale (-1) R)) 0 s6_GX R) 3 s6_VPHI R) 3 s6_BWX (mscale (-1) R).
Definition odomF (A : matn) (tf : Iso) : matn :=
  mput_row (put_block (put_block A 0 s6_VX (iR tf)) 0 s6_VPHI (mmul (mscale (-1) (skew (it tf))) (iR tf))) 3 s6_VPHI (r2 (iR tf)).
Lemma imuF_cell A R i j : (i < 6)%nat -> (j < 18)%nat -> imuF A R i j = A i j /\ (forall R', imuF (fun _ _ => 0) R' i j = 0) \/ imuF A R i j = imuF (fun _ _ => 0) R i j.
Proof.
  intros Hi Hj. unfold imuF, put_block, mput_row.
  do 6 (destruct i as [|i]; [do 18 (destruct j as [|j]; [ cbv [mput Nat.eqb andb Nat.add s6_AX s6_BAX s6_GX s6_VPHI s6_BWX]; first [right; reflexivity | left; split; [reflexivity | intros; reflexivity]]|]); exfalso; lia|]). exfalso; lia.
Qed.
Lemma odomF_cell A tf i j : (i < 4)%nat -> (j < 18)%nat -> odomF A tf i j = A i j /\ (forall tf', odomF (fun _ _ => 0) tf' i j = 0) \/ odomF A tf i j = odomF (fun _ _ => 0) tf i j.
Proof.
  intros Hi Hj. unfold odomF, put_block, mput_row.
  do 4 (destruct i as [|i]; [do 18 (destruct j as [|j]; [ cbv [mput Nat.eqb andb Nat.add s6_VX s6_VPHI]; first [right; reflexivity | left; split; [reflexivity | intros; reflexivity]]|]); exfalso; lia|]). exfalso; lia.
Qed.
(** the transform the Jacobian was last computed for: the last one that is not the identity *)
Fixpoint last_moving (tfs : list Iso) (d : Iso) : Iso :=
  match tfs with [] => d | tf :: l => last_moving l (if is_identity tf then d else tf) end.
Lemma last_cons (t d : Iso) tfs : last (t :: tfs) d = last tfs t.
Proof. revert t d. induction tfs as [|a tfs IH]; intros t d; [reflexivity|]. transitivity (last (a :: tfs) d); [reflexivity|]. rewrite !IH. reflexivity. Qed.
Lemma imu_after_inv tfs m tf : m6_cj m = true -> (m6_tf_set m = false -> m6_tf m = iso_id) -> agree 6 (m6_H m) (imuF (fun _ _ => 0) (iR tf)) ->
  let m' := fold_left (setTf imu_post) tfs m in
  (m6_tf_set m' = false -> m6_tf m' = iso_id) /\ m6_tf m' = last tfs (m6_tf m)
  /\ agree 6 (m6_H m') (imuF (fun _ _ => 0) (iR (last_moving tfs tf))).
Proof.
  revert m tf. induction tfs as [|t tfs IH]; intros m tf Hc Hs HA; cbn [fold_left last_moving]; [repeat split; assumption|].
  rewrite last_cons. destruct (is_identity t) eqn:Ht.
  - assert (setTf imu_post m t = mkM6 (m6_cj m) t false (m6_H m)) as -> by (unfold setTf; rewrite Ht; reflexivity).
    apply is_identity_spec in Ht. subst t. refine (IH (mkM6 _ _ _ _) tf _ _ _); auto.
  - assert (setTf imu_post m t = mkM6 true t true (imuF (m6_H m) (iR t))) as -> by (unfold setTf, imu_post; rewrite Ht; cbn [m6_cj negb m6_tf_set]; rewrite Hc; reflexivity).
    refine (IH (mkM6 true t true (imuF (m6_H m) (iR t))) t _ _ _); cbn [m6_cj m6_tf m6_H m6_tf_set]; [reflexivity|discriminate|].
    intros i j Hi Hj. specialize (HA i j Hi Hj). destruct (imuF_cell (m6_H m) (iR t) i j Hi Hj) as [(E1 & E2)|E].
    + rewrite E1, HA, E2. symmetry. apply E2.
    + exact E.
Qed.
Lemma odom_after_inv tfs m tf : m6_cj m = true -> agree 4 (m6_H m) (odomF (fun _ _ => 0) tf) ->
  let m' := fold_left (setTf odom_post) tfs m in
  m6_tf m' = last tfs (m6_tf m) /\ agree 4 (m6_H m') (odomF (fun _ _ => 0) (last_moving tfs tf)).
Proof.
  revert m tf. induction tfs as [|t tfs IH]; intros m tf Hc HA; cbn [fold_left last_moving]; [repeat split; assumption|].
  rewrite last_cons. destruct (is_identity t) eqn:Ht.
  - assert (setTf odom_post m t = mkM6 (m6_cj m) t false (m6_H m)) as -> by (unfold setTf; rewrite Ht; reflexivity).
    refine (IH (mkM6 _ _ _ _) tf _ _); auto.
  - assert (setTf odom_post m t = mkM6 true t true (odomF (m6_H m) t)) as -> by (unfold setTf, odom_post; rewrite Ht; cbn [m6_cj negb m6_tf_set]; rewrite Hc; reflexivity).
    refine (IH (mkM6 true t true (odomF (m6_H m) t)) t _ _); cbn [m6_cj m6_tf m6_H m6_tf_set]; [reflexivity|].
    intros i j Hi Hj. specialize (HA i j Hi Hj). destruct (odomF_cell (m6_H m) t i j Hi Hj) as [(E1 & E2)|E].
    + rewrite E1, HA, E2. symmetry. apply E2.
    + exact E.
Qed.
Lemma mat_vec_ext k A B x i : agree k A B -> (i < k)%nat -> mat_vec A x i = mat_vec B x i.
Proof.
  intros HA Hi. unfold mat_vec. assert (forall n, (n <= 18)%nat -> rsum n (fun j => A i j * x j) = rsum n (fun j => B i j * x j)) as E.
  { induction n as [|n IH]; intros Hn; [reflexivity|]. cbn [rsum]. rewrite IH by lia. rewrite (HA i n) by (unfold s6_DIMS; lia). reflexivity. }
  apply E. unfold s6_DIMS. lia.
Qed.
Lemma imu_h_lin m x i : (m6_tf_set m = false -> m6_tf m = iso_id) -> (i < 6)%nat -> imu_h m x i = mat_vec (imuF (fun _ _ => 0) (iR (m6_tf m))) x i.
Proof.
  intros Hs Hi. unfold imu_h. destruct (m6_tf_set m) eqn:E; [clear E|rewrite (Hs eq_refl)]; clear Hs; unfold mat_vec, s6_DIMS.
  - generalize (iR (m6_tf m)). intros [[a b c] [d e f] [g h k]].
    do 6 (destruct i as [|i]; [cbv -[Rplus Rmult Ropp Rminus IZR]; ring|]). exfalso; lia.
  - do 6 (destruct i as [|i]; [cbv -[Rplus Rmult Ropp Rminus IZR]; ring|]). exfalso; lia.
Qed.
Lemma odom_h_lin m x i : (i < 4)%nat -> odom_h m x i = mat_vec (odomF (fun _ _ => 0) (m6_tf m)) x i.
Proof.
  intros Hi. unfold odom_h, mat_vec, s6_DIMS. generalize (m6_tf m). intros [[[a b c] [d e f] [g h k]] [t1 t2 t3]].
  do 4 (destruct i as [|i]; [cbv -[Rplus Rmult Ropp Rminus IZR]; ring|]). exfalso; lia.
Qed.

Lemma imu_after_spec tfs : let m := imu_after tfs in
  (m6_tf_set m = false -> m6_tf m = iso_id) /\ m6_tf m = last tfs iso_id /\ agree 6 (m6_H m) (imuF (fun _ _ => 0) (iR (last_moving tfs iso_id))).
Proof. apply (imu_after_inv tfs (imu_new true) iso_id); try reflexivity. intros i j _ _. reflexivity. Qed.
Lemma odom_after_spec tfs : let m := odom_after tfs in
  m6_tf m = last tfs iso_id /\ agree 4 (m6_H m) (odomF (fun _ _ => 0) (last_moving tfs iso_id)).
Proof. apply (odom_after_inv tfs (odom_new true) iso_id); try reflexivity. intros i j _ _. reflexivity. Qed.

(** the calls end with a transform that moves something, or never moved anything *)
Definition settled (tfs : list Iso) : Prop := (forall tf, In tf tfs -> tf = iso_id) \/ (exists l tf, tfs = l ++ [tf] /\ tf <> iso_id).
Lemma last_moving_app l tf d : last_moving (l ++ [tf]) d = if is_identity tf then last_moving l d else tf.
Proof. revert d. induction l as [|a l IH]; intros d; cbn; [reflexivity|apply IH]. Qed.
Lemma last_moving_ids l d : (forall tf, In tf l -> tf = iso_id) -> last_moving l d = d.
Proof.
  revert d. induction l as [|a l IH]; intros d H; cbn; [reflexivity|]. rewrite (proj2 (is_identity_spec a)) by (apply H; left; reflexivity).
  apply IH. intros tf Htf. apply H. right. exact Htf.
Qed.
Lemma last_ids l : (forall tf, In tf l -> tf = iso_id) -> last l iso_id = iso_id.
Proof. induction l as [|a l IH]; intros H; [reflexivity|]. rewrite last_cons, (H a) by (left; reflexivity). apply IH. intros tf Htf. apply H. right. exact Htf. Qed.
Lemma last_app l (tf d : Iso) : last (l ++ [tf]) d = tf.
Proof. apply last_last. Qed.
Lemma settled_spec tfs : settled tfs -> last_moving tfs iso_id = last tfs iso_id.
Proof.
  intros [H|(l & tf & -> & H)]; [rewrite last_moving_ids, last_ids by exact H; reflexivity|].
  rewrite last_moving_app, last_app. destruct (is_identity tf) eqn:E; [apply is_identity_spec in E; contradiction|reflexivity].
Qed.

(** ** C72: h(x) = H x after construction, after calls with the identity only, and after any calls that
    end with a non-identity transform; H is then the Jacobian of h everywhere *)
Theorem C72_imu (tfs : list Iso) (x : vecn) (i : nat) : settled tfs -> (i < 6)%nat ->
  imu_h (imu_after tfs) x i = mat_vec (m6_H (imu_after tfs)) x i.
Proof.
  intros Hs Hi. destruct (imu_after_spec tfs) as (A & B & C). rewrite (imu_h_lin _ x i A Hi), B, (mat_vec_ext 6 _ _ x i C Hi), settled_spec by exact Hs. reflexivity.
Qed.
Theorem C72_odom (tfs : list Iso) (x : vecn) (i : nat) : settled tfs -> (i < 4)%nat ->
  odom_h (odom_after tfs) x i = mat_vec (m6_H (odom_after tfs)) x i.
Proof.
  intros Hs Hi. destruct (odom_after_spec tfs) as (B & C). rewrite (odom_h_lin _ x i Hi), B, (mat_vec_ext 4 _ _ x i C Hi), settled_spec by exact Hs. reflexivity.
Qed.
(** what the matrices are, in terms of the transform; the entries of the state, in the order of
    include/state_estimation/definitions/six_d_rates.h: velocity, acceleration, rates, gravity,
    accelerometer bias, gyroscope bias *)
Definition velocity (x : vecn) : V3 := mkV (x 0%nat) (x 1%nat) (x 2%nat).
Definition acceleration (x : vecn) : V3 := mkV (x 3%nat) (x 4%nat) (x 5%nat).
Definition rates (x : vecn) : V3 := mkV (x 6%nat) (x 7%nat) (x 8%nat).
Definition gravity_of (x : vecn) : V3 := mkV (x 9%nat) (x 10%nat) (x 11%nat).
Definition accel_bias (x : vecn) : V3 := mkV (x 12%nat) (x 13%nat) (x 14%nat).
Definition gyro_bias (x : vecn) : V3 := mkV (x 15%nat) (x 16%nat) (x 17%nat).
Theorem C72_imu_value (tfs : list Iso) (x : vecn) : let tf := last tfs iso_id in let z := imu_h (imu_after tfs) x in
  seg z 0 = mvec (iR tf) (vadd (vsub (acceleration x) (accel_bias x)) (gravity_of x)) /\ seg z 3 = mvec (iR tf) (vsub (rates x) (gyro_bias x)).
Proof.
  destruct (imu_after_spec tfs) as (A & B & _). cbv zeta. rewrite <- B. unfold imu_h. destruct (m6_tf_set (imu_after tfs)) eqn:E.
  - split; reflexivity.
  - rewrite (A eq_refl). cbn [iR iso_id]. split; apply V3_eq; cbv -[Rplus Rmult Ropp Rminus IZR]; ring.
Qed.
Theorem C72_odom_value (tfs : list Iso) (x : vecn) : let tf := last tfs iso_id in let z := odom_h (odom_after tfs) x in
  seg z 0 = vadd (mvec (iR tf) (velocity x)) (cross (mvec (iR tf) (rates x)) (it tf)) /\ z 3%nat = vz (mvec (iR tf) (rates x)).
Proof.
  destruct (odom_after_spec tfs) as (B & _). cbv zeta. rewrite <- B. unfold odom_h. split; [|reflexivity].
  generalize (m6_tf (odom_after tfs)). intros [[[a b c] [d e f] [g h k]] [t1 t2 t3]]. apply V3_eq; cbv -[Rplus Rmult Ropp Rminus IZR]; ring.
Qed.

(** ** C36 *)
Lemma rsum_plus n f g : rsum n (fun j => f j + g j) = rsum n f + rsum n g.
Proof. induction n as [|n IH]; cbn; [ring|rewrite IH; ring]. Qed.
Lemma rsum_scale n c f : rsum n (fun j => c * f j) = c * rsum n f.
Proof. induction n as [|n IH]; cbn; [ring|rewrite IH; ring]. Qed.
Lemma rsum_ext n f g : (forall j, f j = g j) -> rsum n f = rsum n g.
Proof. intros E. induction n as [|n IH]; cbn; [reflexivity|]. rewrite IH, E. reflexivity. Qed.
Lemma mat_vec_line A x d s i : mat_vec A (fun j => x j + s * d j) i = mat_vec A x i + s * mat_vec A d i.
Proof. unfold mat_vec. rewrite <- rsum_scale, <- rsum_plus. apply rsum_ext. intros j. ring. Qed.
Lemma affine_derive f a b l : (forall s, f s = a + s * b) -> is_derive f 0 l <-> l = b.
Proof.
  intros E. assert (is_derive f 0 b) as D.
  { apply (is_derive_ext (fun s => a + s * b)); [intros; symmetry; apply E|]. auto_derive; [exact I|ring]. }
  split; [|intros ->; exact D]. intros D'. rewrite <- (is_derive_unique f 0 b D). symmetry. apply is_derive_unique, D'.
Qed.
Lemma jacobian_lin h k (A H : matn) x : (forall y i, (i < k)%nat -> h y i = mat_vec A y i) ->
  jacobian_of h k x H <-> (forall d i, (i < k)%nat -> mat_vec H d i = mat_vec A d i).
Proof.
  intros Hh. unfold jacobian_of. split; intros J d i Hi; specialize (J d i Hi).
  - apply (affine_derive _ (mat_vec A x i) (mat_vec A d i)) in J; [exact J|]. intros s. rewrite Hh by exact Hi. apply mat_vec_line.
  - apply (affine_derive _ (mat_vec A x i) (mat_vec A d i)); [|exact J]. intros s. rewrite Hh by exact Hi. apply mat_vec_line.
Qed.
(** the claim: after any calls of setTf with rigid transforms, H is the Jacobian of h at every state *)
Definition C36_claim_imu : Prop := forall tfs x, List.Forall rigid tfs -> jacobian_of (imu_h (imu_after tfs)) 6 x (m6_H (imu_after tfs)).
Definition C36_claim_odom : Prop := forall tfs x, List.Forall rigid tfs -> jacobian_of (odom_h (odom_after tfs)) 4 x (m6_H (odom_after tfs)).
(** exactly when it holds: the rotation of the last transform that is not the identity is the current one *)
Lemma imuF_inj A B : agree 6 (imuF (fun _ _ => 0) A) (imuF (fun _ _ => 0) B) -> A = B.
Proof.
  intros H. apply M3_eq; apply V3_eq.
  - exact (H 0 3 ltac:(lia) ltac:(unfold s6_DIMS; lia))%nat.
  - exact (H 0 4 ltac:(lia) ltac:(unfold s6_DIMS; lia))%nat.
  - exact (H 0 5 ltac:(lia) ltac:(unfold s6_DIMS; lia))%nat.
  - exact (H 1 3 ltac:(lia) ltac:(unfold s6_DIMS; lia))%nat.
  - exact (H 1 4 ltac:(lia) ltac:(unfold s6_DIMS; lia))%nat.
  - exact (H 1 5 ltac:(lia) ltac:(unfold s6_DIMS; lia))%nat.
  - exact (H 2 3 ltac:(lia) ltac:(unfold s6_DIMS; lia))%nat.
  - exact (H 2 4 ltac:(lia) ltac:(unfold s6_DIMS; lia))%nat.
  - exact (H 2 5 ltac:(lia) ltac:(unfold s6_DIMS; lia))%nat.
Qed.
Lemma mat_vec_unit A i j : (j < s6_DIMS)%nat -> mat_vec A (fun k => if Nat.eqb k j then 1 else 0) i = A i j.
Proof.
  intros Hj. unfold mat_vec. assert (forall n, rsum n (fun k => A i k * (if Nat.eqb k j then 1 else 0)) = if Nat.ltb j n then A i j else 0) as E.
  { induction n as [|n IH]; [reflexivity|]. cbn [rsum]. rewrite IH. destruct (Nat.eqb n j) eqn:E.
    - apply Nat.eqb_eq in E. subst n. rewrite Nat.ltb_irrefl. assert (Nat.ltb j (S j) = true) as -> by (apply Nat.ltb_lt; lia). ring.
    - apply Nat.eqb_neq in E. destruct (Nat.ltb j n) eqn:L.
      + apply Nat.ltb_lt in L. assert (Nat.ltb j (S n) = true) as -> by (apply Nat.ltb_lt; lia). ring.
      + apply Nat.ltb_ge in L. assert (Nat.ltb j (S n) = false) as -> by (apply Nat.ltb_ge; lia). ring. }
  rewrite E. apply Nat.ltb_lt in Hj. rewrite Hj. reflexivity.
Qed.
Lemma agree_vec k A B : (forall d i, (i < k)%nat -> mat_vec A d i = mat_vec B d i) <-> agree k A B.
Proof.
  split.
  - intros H i j Hi Hj. rewrite <- (mat_vec_unit A i j Hj), <- (mat_vec_unit B i j Hj). apply H, Hi.
  - intros H d i Hi. apply (mat_vec_ext k); assumption.
Qed.
Lemma agree_sym k A B : agree k A B -> agree k B A.
Proof. intros H i j Hi Hj. symmetry. apply H; assumption. Qed.
Lemma agree_trans k A B C : agree k A B -> agree k B C -> agree k A C.
Proof. intros H K i j Hi Hj. rewrite H by assumption. apply K; assumption. Qed.
Theorem C36_imu_iff_partial (tfs : list Iso) (x : vecn) :
  jacobian_of (imu_h (imu_after tfs)) 6 x (m6_H (imu_after tfs)) <-> iR (last_moving tfs iso_id) = iR (last tfs iso_id).
Proof.
  destruct (imu_after_spec tfs) as (A & B & C).
  rewrite (jacobian_lin _ 6 (imuF (fun _ _ => 0) (iR (last tfs iso_id)))) by (intros y i Hi; rewrite <- B; apply imu_h_lin; assumption).
  rewrite (agree_vec 6). split.
  - intros H. apply imuF_inj. apply (agree_trans _ _ (m6_H (imu_after tfs))); [apply agree_sym, C|exact H].
  - intros H. rewrite <- H. exact C.
Qed.

Lemma last_moving_cases tfs : (exists tf, last_moving tfs iso_id = tf /\ tf <> iso_id /\ In tf tfs) \/ (last_moving tfs iso_id = iso_id /\ forall tf, In tf tfs -> tf = iso_id).
Proof.
  induction tfs as [|t l IH] using rev_ind; [right; split; [reflexivity|intros tf []]|]. rewrite last_moving_app. destruct (is_identity t) eqn:E.
  - apply is_identity_spec in E. subst t. destruct IH as [(tf & A & B & C)|(A & B)].
    + left. exists tf. repeat split; auto. apply in_or_app. left. exact C.
    + right. split; [exact A|]. intros tf H. apply in_app_or in H. destruct H as [H|[H|[]]]; auto.
  - left. exists t. repeat split; [|apply in_or_app; right; left; reflexivity].
    intros H. apply is_identity_spec in H. congruence.
Qed.
(** the odometry Jacobian also depends on the offset: it is right exactly for the sequences that never
    moved anything or whose last call is not with the identity *)
Lemma odomF_id tf : agree 4 (odomF (fun _ _ => 0) tf) (odomF (fun _ _ => 0) iso_id) -> tf = iso_id.
Proof.
  intros H. assert (iR tf = mid) as HR.
  { apply M3_eq; apply V3_eq.
    - exact (H 0 0 ltac:(lia) ltac:(unfold s6_DIMS; lia))%nat.
    - exact (H 0 1 ltac:(lia) ltac:(unfold s6_DIMS; lia))%nat.
    - exact (H 0 2 ltac:(lia) ltac:(unfold s6_DIMS; lia))%nat.
    - exact (H 1 0 ltac:(lia) ltac:(unfold s6_DIMS; lia))%nat.
    - exact (H 1 1 ltac:(lia) ltac:(unfold s6_DIMS; lia))%nat.
    - exact (H 1 2 ltac:(lia) ltac:(unfold s6_DIMS; lia))%nat.
    - exact (H 2 0 ltac:(lia) ltac:(unfold s6_DIMS; lia))%nat.
    - exact (H 2 1 ltac:(lia) ltac:(unfold s6_DIMS; lia))%nat.
    - exact (H 2 2 ltac:(lia) ltac:(unfold s6_DIMS; lia))%nat. }
  destruct tf as [m [t1 t2 t3]]. cbn [iR] in HR. subst m. unfold iso_id. f_equal.
  pose proof (H 0 7 ltac:(lia) ltac:(unfold s6_DIMS; lia))%nat as E1. pose proof (H 0 8 ltac:(lia) ltac:(unfold s6_DIMS; lia))%nat as E2. pose proof (H 1 8 ltac:(lia) ltac:(unfold s6_DIMS; lia))%nat as E3.
  cbv -[Rplus Rmult Ropp Rminus IZR] in E1, E2, E3. apply V3_eq; cbv -[Rplus Rmult Ropp Rminus IZR]; lra.
Qed.
Lemma not_settled tfs : ~ settled tfs -> last tfs iso_id = iso_id /\ last_moving tfs iso_id <> iso_id.
Proof.
  intros H. destruct (last_moving_cases tfs) as [(tf & A & B & C)|(A & B)]; [|exfalso; apply H; left; exact B]. split; [|congruence].
  destruct tfs as [|t l] using rev_ind; [reflexivity|]. rewrite last_app. destruct (is_identity t) eqn:E; [apply is_identity_spec, E|].
  exfalso. apply H. right. exists l, t. split; [reflexivity|]. intros K. apply is_identity_spec in K. congruence.
Qed.
Theorem C36_odom_iff_partial (tfs : list Iso) (x : vecn) :
  jacobian_of (odom_h (odom_after tfs)) 4 x (m6_H (odom_after tfs)) <-> settled tfs.
Proof.
  destruct (odom_after_spec tfs) as (B & C).
  rewrite (jacobian_lin _ 4 (odomF (fun _ _ => 0) (last tfs iso_id))) by (intros y i Hi; rewrite <- B; apply odom_h_lin; assumption).
  rewrite (agree_vec 4). split.
  - intros H. destruct (Classical_Prop.classic (settled tfs)) as [S|S]; [exact S|]. destruct (not_settled tfs S) as (L & M). exfalso. apply M. apply odomF_id.
    rewrite L in H. apply (agree_trans _ _ (m6_H (odom_after tfs))); [apply agree_sym, C|exact H].
  - intros H. rewrite <- (settled_spec tfs H). exact C.
Qed.
(** in particular for both models H is the Jacobian of h for every such sequence *)
Theorem C36_settled_partial (tfs : list Iso) (x : vecn) : settled tfs ->
  jacobian_of (imu_h (imu_after tfs)) 6 x (m6_H (imu_after tfs)) /\ jacobian_of (odom_h (odom_after tfs)) 4 x (m6_H (odom_after tfs)).
Proof. intros H. split; [apply C36_imu_iff_partial; rewrite (settled_spec tfs H); reflexivity|apply C36_odom_iff_partial, H]. Qed.
(** H stays the one of the last transform that moved something: going back to the identity keeps it *)
Theorem C36_stale_partial (tfs ids : list Iso) (tf : Iso) : tf <> iso_id -> (forall t, In t ids -> t = iso_id) ->
  agree 6 (m6_H (imu_after (tfs ++ tf :: ids))) (m6_H (imu_after [tf])) /\ agree 4 (m6_H (odom_after (tfs ++ tf :: ids))) (m6_H (odom_after [tf])).
Proof.
  intros H Hi. assert (last_moving (tfs ++ tf :: ids) iso_id = last_moving [tf] iso_id) as E.
  { assert (forall l d, last_moving (l ++ tf :: ids) d = last_moving ids (if is_identity tf then last_moving l d else tf)) as A by (induction l as [|a l IH]; intros d; cbn; [reflexivity|apply IH]).
    rewrite A. cbn [last_moving]. destruct (is_identity tf) eqn:E; [apply is_identity_spec in E; contradiction|]. apply last_moving_ids, Hi. }
  destruct (imu_after_spec (tfs ++ tf :: ids)) as (_ & _ & A1). destruct (imu_after_spec [tf]) as (_ & _ & A2).
  destruct (odom_after_spec (tfs ++ tf :: ids)) as (_ & B1). destruct (odom_after_spec [tf]) as (_ & B2). rewrite E in A1, B1. split.
  - exact (agree_trans _ _ _ _ A1 (agree_sym _ _ _ A2)).
  - exact (agree_trans _ _ _ _ B1 (agree_sym _ _ _ B2)).
Qed.
Lemma rz90_moves t : mkIso rz90 t <> iso_id.
Proof. intros H. apply (f_equal (fun tf => vx (r0 (iR tf)))) in H. cbn in H. lra. Qed.
Lemma rz90_id_rigid t : List.Forall rigid [mkIso rz90 t; iso_id].
Proof. constructor; [apply rz90_rot|]. constructor; [apply rotation_mid|constructor]. Qed.
Theorem C36_refuted_imu : ~ C36_claim_imu.
Proof.
  intros H. specialize (H [mkIso rz90 vzero; iso_id] (fun _ => 0) (rz90_id_rigid _)). apply C36_imu_iff_partial in H. cbn [last_moving last] in H.
  destruct (is_identity (mkIso rz90 vzero)) eqn:E; [apply is_identity_spec in E; exact (rz90_moves _ E)|].
  rewrite (proj2 (is_identity_spec iso_id) eq_refl) in H. apply (f_equal (fun m => vx (r0 m))) in H. cbn in H. lra.
Qed.
Theorem C36_refuted_odom : ~ C36_claim_odom.
Proof.
  intros H. specialize (H [mkIso rz90 vzero; iso_id] (fun _ => 0) (rz90_id_rigid _)). apply C36_odom_iff_partial in H. destruct H as [H|(l & tf & E & H)].
  - apply (rz90_moves vzero). apply H. left. reflexivity.
  - apply H. change [mkIso rz90 vzero; iso_id] with ([mkIso rz90 vzero] ++ [iso_id]) in E. apply app_inj_tail in E. destruct E as [_ E]. auto.
Qed.
Example C72_nonvacuous : settled [] /\ settled [iso_id] /\ settled [iso_id; mkIso rz90 (mkV 1 2 3)] /\ ~ settled [mkIso rz90 vzero; iso_id].
Proof.
  split; [left; intros ? []|]. split; [left; intros ? [<-|[]]; reflexivity|]. split.
  - right. exists [iso_id], (mkIso rz90 (mkV 1 2 3)). split; [reflexivity|apply rz90_moves].
  - intros [H|(l & tf & E & H)].
    + apply (rz90_moves vzero). apply H. left. reflexivity.
    + apply H. change [mkIso rz90 vzero; iso_id] with ([mkIso rz90 vzero] ++ [iso_id]) in E. apply app_inj_tail in E. destruct E as [_ E]. auto.
Qed.
