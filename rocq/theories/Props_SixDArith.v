(** State arithmetic of the six_d_rates state (C71): definitions/six_d_rates.cpp. *)
From Coq Require Import Reals Lra Lia List Bool Arith.
From Coquelicot Require Import Coquelicot.
From Verif Require Import Outcome ActiveSets Geo Integration Props_Integration Transform Props_Transform Props_Imu SixD Props_SixD.
Import ListNotations.
Open Scope R_scope.

(** ** C71 *)
Definition standard : R := 98062 / 10000.   (* the magnitude of gravity in m/s^2 *)
Definition std_gravity (x : vecn) : Prop := norm (seg x 9) = standard.
Lemma std_gravity_def x : std_gravity x = (norm (seg x s6_GX) = g_std).
Proof. reflexivity. Qed.
Fixpoint total (w : list R) : R := match w with [] => 0 | a :: w' => a + total w' end.
Definition C71_claim_add : Prop := forall a b, std_gravity a -> std_gravity b ->
  forall i, (i < s6_DIMS)%nat -> s6_addState (s6_subtractState a b) b i = a i.
Definition C71_claim_sum : Prop := forall w x, std_gravity x -> total w = 1 ->
  exists s, s6_weightedSumOfStates w (repeat x (length w)) = Ok s /\ forall i, (i < s6_DIMS)%nat -> s i = x i.

Lemma gstd_pos : 0 < g_std.
Proof. unfold g_std. lra. Qed.
Lemma renorm_other x i : (i < 9 \/ 11 < i)%nat -> renorm x i = x i.
Proof. intros H. unfold renorm, s6_GX. apply put_seg_other. lia. Qed.
Lemma renorm_gravity x : seg (renorm x) s6_GX = vscale g_std (normalized (seg x s6_GX)).
Proof. apply seg_put_seg. Qed.
Lemma normalized_norm v : v <> vzero -> norm (normalized v) = 1.
Proof.
  intros H. destruct (normalized_nz v H) as (E & N). rewrite E. unfold norm at 1. rewrite N. apply sqrt_1.
Qed.
Lemma normalized_zero : normalized vzero = vzero.
Proof. unfold normalized. destruct (Rlt_dec 0 (norm2 vzero)); [|reflexivity]. v3. Qed.
Lemma renorm_std v : norm v = g_std -> vscale g_std (normalized v) = v.
Proof.
  intros H. pose proof gstd_pos. assert (v <> vzero) as Hz by (intros ->; rewrite norm_zero in H; lra).
  destruct (normalized_nz v Hz) as (-> & _). rewrite H. apply V3_eq; gunf; field; lra.
Qed.
Lemma seg_eq x y i : seg x i = seg y i -> x i = y i /\ x (i + 1)%nat = y (i + 1)%nat /\ x (i + 2)%nat = y (i + 2)%nat.
Proof. unfold seg. intros [= A B C]. auto. Qed.

Definition grav_state (v : V3) : vecn := put_seg (fun _ => 0) s6_GX v.
Theorem C71_refuted_add : ~ C71_claim_add.
Proof.
  intros H. pose proof gstd_pos as Hg. set (a := grav_state (mkV 0 0 g_std)). set (b := grav_state (mkV g_std 0 0)).
  assert (seg a s6_GX = mkV 0 0 g_std) as Ea by apply seg_put_seg. assert (seg b s6_GX = mkV g_std 0 0) as Eb by apply seg_put_seg.
  assert (std_gravity a) as Sa by (rewrite std_gravity_def; rewrite Ea; apply norm_z; lra).
  assert (std_gravity b) as Sb.
  { rewrite std_gravity_def. rewrite Eb. unfold norm. replace (norm2 (mkV g_std 0 0)) with (g_std * g_std) by (gunf; ring). apply sqrt_square. lra. }
  specialize (H a b Sa Sb s6_GX ltac:(unfold s6_GX, s6_DIMS; lia)).
  pose proof (f_equal vx (renorm_gravity (fun i => s6_subtractState a b i + b i))) as E1. cbn [seg vx] in E1.
  change (renorm (fun i => s6_subtractState a b i + b i) s6_GX) with (s6_addState (s6_subtractState a b) b s6_GX) in E1. rewrite H in E1.
  replace (a s6_GX) with 0 in E1 by reflexivity.
  assert (seg (fun i => s6_subtractState a b i + b i) s6_GX = vadd (seg (s6_subtractState a b) s6_GX) (seg b s6_GX)) as E2 by reflexivity.
  assert (seg (s6_subtractState a b) s6_GX = vscale g_std (normalized (mkV (- g_std) 0 g_std))) as E3.
  { unfold s6_subtractState. rewrite renorm_gravity. f_equal. f_equal.
    transitivity (vsub (seg a s6_GX) (seg b s6_GX)); [reflexivity|]. rewrite Ea, Eb. v3. }
  rewrite E2, E3, Eb in E1. set (v := mkV (- g_std) 0 g_std) in *.
  assert (v <> vzero) as Hv by (intros E; apply (f_equal vz) in E; unfold v, vzero in E; cbn in E; lra).
  destruct (normalized_nz v Hv) as (N & _). rewrite N in E1.
  assert (g_std < norm v) as Nv.
  { pose proof (norm_sq v) as S. pose proof (norm_pos v). assert (norm2 v = 2 * (g_std * g_std)) by (unfold v; gunf; ring). nra. }
  set (u := vadd (vscale g_std (vscale (/ norm v) v)) (mkV g_std 0 0)) in *.
  assert (0 < vx u) as Hu.
  { assert (g_std * / norm v < 1) as L. { apply (Rmult_lt_reg_r (norm v)); [lra|]. rewrite Rmult_assoc, Rinv_l by lra. lra. }
    unfold u, v. gunf. replace (g_std * (/ norm (mkV (- g_std) 0 g_std) * - g_std) + g_std) with (g_std * (1 - g_std * / norm (mkV (- g_std) 0 g_std))) by ring.
    apply Rmult_lt_0_compat; [lra|]. fold v. lra. }
  assert (u <> vzero) as Hu0 by (intros E; rewrite E in Hu; cbn in Hu; lra).
  destruct (normalized_nz u Hu0) as (Nu & _). rewrite Nu in E1. unfold vscale in E1; cbn [vx] in E1.
  pose proof (norm_nz u Hu0) as Hn. assert (0 < / norm u) by (apply Rinv_0_lt_compat; exact Hn).
  assert (0 < g_std * (/ norm u * vx u)) by (apply Rmult_lt_0_compat; [exact Hg|apply Rmult_lt_0_compat; assumption]). lra.
Qed.
(** two identical states with weights 1/2, 1/2: twice the gravity *)
Theorem C71_refuted_sum : ~ C71_claim_sum.
Proof.
  intros H. pose proof gstd_pos as Hg. set (x := grav_state (mkV 0 0 g_std)).
  assert (seg x s6_GX = mkV 0 0 g_std) as Ex by apply seg_put_seg.
  destruct (H [1 / 2; 1 / 2] x) as (s & Hs & E).
  - rewrite std_gravity_def. rewrite Ex. apply norm_z. lra.
  - cbn [total]. lra.
  - cbn [s6_weightedSumOfStates length repeat Nat.eqb combine fold_left fst snd] in Hs.
    unfold s6_weightedSumOfStates in Hs. cbn [length repeat Nat.eqb combine fold_left fst snd] in Hs. injection Hs as <-.
    specialize (E 11%nat ltac:(unfold s6_DIMS; lia)). cbv beta in E. set (y := fun i => 1 / 2 * x i) in E.
    assert (renorm y 11%nat = g_std) as R.
    { pose proof (f_equal vz (renorm_gravity y)) as R. cbn [seg vz s6_GX Nat.add] in R. rewrite R.
      change (seg y s6_GX) with (vscale (1 / 2) (seg x s6_GX)). rewrite Ex.
      set (v := vscale (1 / 2) (mkV 0 0 g_std)). assert (v = mkV 0 0 (g_std / 2)) as Ev by (unfold v; apply V3_eq; gunf; field). rewrite Ev.
      assert (mkV 0 0 (g_std / 2) <> vzero) as Z by (intros Z; apply (f_equal vz) in Z; cbn in Z; lra).
      destruct (normalized_nz _ Z) as (-> & _). rewrite norm_z by lra. gunf. field. lra. }
    rewrite R in E. change (x 11%nat) with g_std in E. lra.
Qed.
(** what holds: every component but gravity is linear ... *)
Theorem C71_other_components_partial (a b : vecn) (i : nat) : (i < 9 \/ 11 < i)%nat ->
  s6_addState a b i = a i + b i /\ s6_subtractState a b i = a i - b i /\ s6_addState (s6_subtractState a b) b i = a i.
Proof. intros H. unfold s6_addState, s6_subtractState. rewrite !renorm_other by exact H. split; [|split]; ring. Qed.
(** ... gravity always comes out with the standard magnitude, along the sum (or difference) ... *)
Theorem C71_gravity_partial (a b : vecn) : vadd (seg a 9) (seg b 9) <> vzero ->
  let s := vadd (seg a 9) (seg b 9) in
  norm (seg (s6_addState a b) 9) = standard /\ seg (s6_addState a b) 9 = vscale (standard / norm s) s.
Proof.
  change 9%nat with s6_GX.
  change standard with g_std.
  intros H s. unfold s6_addState. rewrite renorm_gravity. change (seg (fun i => a i + b i) s6_GX) with s.
  destruct (normalized_nz s H) as (E & _). pose proof (norm_nz s H). pose proof gstd_pos. split.
  - rewrite norm_scale, normalized_norm, Rabs_pos_eq by (auto; lra). ring.
  - rewrite E. apply V3_eq; gunf; field; lra.
Qed.
(** ... the round trip holds for states with the same gravity, and a single state with weight 1 stays *)
Theorem C71_same_gravity_partial (a b : vecn) : std_gravity a -> seg a 9 = seg b 9 ->
  forall i, s6_addState (s6_subtractState a b) b i = a i.
Proof.
  change 9%nat with s6_GX.
  intros Ha Hab i. destruct (le_lt_dec i 8); [apply C71_other_components_partial; lia|]. destruct (le_lt_dec 12 i); [apply C71_other_components_partial; lia|].
  assert (seg (s6_addState (s6_subtractState a b) b) s6_GX = seg a s6_GX) as E.
  { unfold s6_addState. rewrite renorm_gravity.
    change (seg (fun i => s6_subtractState a b i + b i) s6_GX) with (vadd (seg (s6_subtractState a b) s6_GX) (seg b s6_GX)).
    assert (seg (s6_subtractState a b) s6_GX = vzero) as ->.
    { unfold s6_subtractState. rewrite renorm_gravity. change (seg (fun i => a i - b i) s6_GX) with (vsub (seg a s6_GX) (seg b s6_GX)).
      rewrite Hab. replace (vsub (seg b s6_GX) (seg b s6_GX)) with vzero by v3. rewrite normalized_zero. v3. }
    rewrite <- Hab. replace (vadd vzero (seg a s6_GX)) with (seg a s6_GX) by v3. apply renorm_std, Ha. }
  apply seg_eq in E. unfold s6_GX in E. cbn [Nat.add] in E. destruct E as (E1 & E2 & E3).
  assert (i = 9 \/ i = 10 \/ i = 11)%nat as [-> | [-> | ->]] by lia; assumption.
Qed.
Theorem C71_sum_others_partial (w : list R) (X : list vecn) (i : nat) : length w = length X -> (i < 9 \/ 11 < i)%nat ->
  exists s, s6_weightedSumOfStates w X = Ok s /\ s i = fold_right (fun wx a => fst wx * snd wx i + a) 0 (combine w X).
Proof.
  intros HL Hi. unfold s6_weightedSumOfStates. rewrite (proj2 (Nat.eqb_eq _ _) HL). eexists. split; [reflexivity|].
  assert (forall l (acc : vecn), fold_left (fun (X_sum : vecn) (wx : R * vecn) => let delta := renorm (fun i => fst wx * snd wx i) in fun i => X_sum i + delta i) l acc i
    = acc i + fold_right (fun wx a => fst wx * snd wx i + a) 0 l) as E.
  { induction l as [|[c x] l IH]; intros acc; cbn [fold_left fold_right]; [ring|]. rewrite IH, renorm_other by exact Hi. cbn [fst snd]. ring. }
  rewrite E. ring.
Qed.
(** in general the gravity of a weighted sum of copies of x counts the weights: each positive one
    adds a full gravity vector, each negative one subtracts one *)
Definition sgn (r : R) : R := if Rlt_dec 0 r then 1 else if Rlt_dec r 0 then -1 else 0.
Theorem C71_sum_gravity_partial (w : list R) (x : vecn) : std_gravity x ->
  exists s, s6_weightedSumOfStates w (repeat x (length w)) = Ok s
    /\ seg s 9 = vscale (fold_right (fun c a => sgn c + a) 0 w) (seg x 9).
Proof.
  change 9%nat with s6_GX.
  intros Hx. unfold s6_weightedSumOfStates. rewrite repeat_length, Nat.eqb_refl. eexists. split; [reflexivity|]. pose proof gstd_pos.
  assert (forall l acc, seg (fold_left (fun (X_sum : vecn) (wx : R * vecn) => let delta := renorm (fun i => fst wx * snd wx i) in fun i => X_sum i + delta i) (combine l (repeat x (length l))) acc) s6_GX
    = vadd (seg acc s6_GX) (vscale (fold_right (fun c a => sgn c + a) 0 l) (seg x s6_GX))) as E.
  { induction l as [|c l IH]; intros acc; cbn [fold_left fold_right combine repeat length].
    - generalize (seg acc s6_GX) (seg x s6_GX). intros. v3.
    - rewrite IH. clear IH. cbn [fst snd].
      assert (seg (renorm (fun i => c * x i)) s6_GX = vscale (sgn c) (seg x s6_GX)) as D.
      { rewrite renorm_gravity. change (seg (fun i => c * x i) s6_GX) with (vscale c (seg x s6_GX)). rewrite std_gravity_def in Hx. revert Hx. generalize (seg x s6_GX). intros v Hv.
        unfold normalized, sgn. rewrite norm_scale. assert (norm2 (vscale c v) = c * c * (g_std * g_std)) as -> by (rewrite <- Hv, norm_sq; gunf; ring). rewrite Hv.
        destruct (Rlt_dec 0 c) as [P|P]; [|destruct (Rlt_dec c 0) as [Q|Q]].
        - destruct (Rlt_dec _ _) as [|Q]; [|exfalso; apply Q; apply Rmult_lt_0_compat; apply Rmult_lt_0_compat; lra].
          rewrite Rabs_pos_eq by lra. apply V3_eq; gunf; field; lra.
        - destruct (Rlt_dec _ _) as [|Q']; [|exfalso; apply Q'; apply Rmult_lt_0_compat; [nra|apply Rmult_lt_0_compat; lra]].
          rewrite Rabs_left by lra. apply V3_eq; gunf; field; lra.
        - assert (c = 0) as -> by lra. destruct (Rlt_dec _ _); [lra|]. v3. }
      change (seg (fun i => acc i + renorm (fun i => c * x i) i) s6_GX) with (vadd (seg acc s6_GX) (seg (renorm (fun i => c * x i)) s6_GX)). rewrite D.
      generalize (seg acc s6_GX) (seg x s6_GX). intros. v3. }
  rewrite E. change (seg (fun _ => 0) s6_GX) with vzero. generalize (seg x s6_GX). intros. v3.
Qed.
Example C71_nonvacuous : std_gravity (grav_state (mkV 0 0 g_std)).
Proof. rewrite std_gravity_def. unfold grav_state. rewrite seg_put_seg. apply norm_z. unfold g_std. lra. Qed.

