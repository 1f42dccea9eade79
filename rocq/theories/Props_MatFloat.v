(** C109: the covariance a Kalman filter or EKF predicts in double arithmetic, for any dimensions and any
    order of the operations. *)
From Coq Require Import ZArith Reals Lra Lia Bool List Permutation.
From Flocq Require Import Core IEEE754.BinarySingleNaN.
From Verif Require Import Outcome FB_Model FloatTime AngleFloat KF_Float MatFloat.
Import ListNotations.
Open Scope R_scope.

(** ** Specification, on real numbers *)
Definition rmat : Type := nat -> nat -> R.
Definition sym_mat (n : nat) (M : rmat) : Prop := forall i j, (i < n)%nat -> (j < n)%nat -> M i j = M j i.
(** y' M y *)
Definition form (n : nat) (M : rmat) (y : nat -> R) : R := rsum n (fun i => rsum n (fun j => y i * M i j * y j)).
Definition psd_mat (n : nat) (M : rmat) : Prop := forall y, 0 <= form n M y.
Definition cov_mat (n : nat) (M : rmat) : Prop := sym_mat n M /\ psd_mat n M.
(** (A M A')_ij *)
Definition sandwich (q : nat) (A M : rmat) (i j : nat) : R := rsum q (fun k => rsum q (fun l => A i l * M l k) * A j k).
Definition vals (M : fmat) : rmat := fun i j => val (M i j).
Definition mags (M : fmat) : rmat := fun i j => Rabs (val (M i j)).
Definition finite_mat (r c : nat) (M : fmat) : Prop := forall i j, (i < r)%nat -> (j < c)%nat -> finite (M i j) = true.
(** what exact arithmetic gives, the size of the terms, and a row sum of absolute values *)
Definition exact_cov n p m (A cov Pn Rp V Rc : fmat) (i j : nat) : R :=
  sandwich n (vals A) (vals cov) i j + sandwich p (vals Pn) (vals Rp) i j + sandwich m (vals V) (vals Rc) i j.
Definition size_cov n p m (A cov Pn Rp V Rc : fmat) (i j : nat) : R :=
  sandwich n (mags A) (mags cov) i j + sandwich p (mags Pn) (mags Rp) i j + sandwich m (mags V) (mags Rc) i j.
Definition rows n p m (A Pn V : fmat) (j : nat) : R := rsum n (mags A j) + rsum p (mags Pn j) + rsum m (mags V j).
(** the rounding error: relative 2^-53 per operation, and underflow *)
Definition rounding n p m A cov Pn Rp V Rc (i j : nat) : R :=
  ((1 + bpow radix2 (-53)) ^ (2 * (n + p + m)) - 1) * size_cov n p m A cov Pn Rp V Rc i j
  + bpow radix2 (-1075) * (1 + bpow radix2 (-53)) ^ (2 * (n + p + m)) * INR (n + p + m) * (1 + rows n p m A Pn V j).

(** ** Lemmas *)
Lemma sandwich_sym q A M : sym_mat q M -> forall i j, sandwich q A M i j = sandwich q A M j i.
Proof.
  intros S i j. unfold sandwich.
  rewrite (rsum_ext q _ (fun k => rsum q (fun l => A i l * M l k * A j k))) by (intros k _; rewrite rsum_scal_r; reflexivity).
  rewrite rsum_swap. apply rsum_ext. intros l Hl. rewrite <- rsum_scal_r. apply rsum_ext. intros k Hk. rewrite (S l k Hl Hk). ring.
Qed.
Lemma sandwich_form n q A M y : form n (sandwich q A M) y = form q M (fun l => rsum n (fun i => y i * A i l)).
Proof.
  unfold form, sandwich.
  transitivity (rsum n (fun i => rsum n (fun j => rsum q (fun k => rsum q (fun l => y i * A i l * M l k * (y j * A j k)))))).
  { apply rsum_ext. intros i _. apply rsum_ext. intros j _. rewrite <- (rsum_scal q (y i)), <- rsum_scal_r. apply rsum_ext. intros k _.
    rewrite <- (rsum_scal_r q (A j k)), <- (rsum_scal q (y i)), <- rsum_scal_r. apply rsum_ext. intros l _. ring. }
  transitivity (rsum n (fun i => rsum q (fun k => rsum n (fun j => rsum q (fun l => y i * A i l * M l k * (y j * A j k)))))).
  { apply rsum_ext. intros i _. apply rsum_swap. }
  rewrite rsum_swap.
  transitivity (rsum q (fun k => rsum q (fun l => rsum n (fun i => y i * A i l) * M l k * rsum n (fun j => y j * A j k)))).
  2: { rewrite rsum_swap. reflexivity. }
  apply rsum_ext. intros k _.
  transitivity (rsum n (fun i => rsum q (fun l => rsum n (fun j => y i * A i l * M l k * (y j * A j k))))).
  { apply rsum_ext. intros i _. apply rsum_swap. }
  rewrite rsum_swap. apply rsum_ext. intros l _. rewrite <- !rsum_scal_r. apply rsum_ext. intros i _. rewrite <- rsum_scal. apply rsum_ext. intros j _. ring.
Qed.
Lemma form_plus n M N y : form n (fun i j => M i j + N i j) y = form n M y + form n N y.
Proof.
  unfold form. rewrite <- rsum_plus. apply rsum_ext. intros i _. rewrite <- rsum_plus. apply rsum_ext. intros j _. ring.
Qed.
Lemma sandwich_psd n q A M : psd_mat q M -> psd_mat n (sandwich q A M).
Proof. intros H y. rewrite sandwich_form. apply H. Qed.
Lemma exact_sym n p m A cov Pn Rp V Rc : sym_mat n (vals cov) -> sym_mat p (vals Rp) -> sym_mat m (vals Rc) ->
  forall i j, exact_cov n p m A cov Pn Rp V Rc i j = exact_cov n p m A cov Pn Rp V Rc j i.
Proof. intros H1 H2 H3 i j. unfold exact_cov. rewrite (sandwich_sym n), (sandwich_sym p), (sandwich_sym m) by assumption. reflexivity. Qed.
Lemma exact_psd n p m A cov Pn Rp V Rc : psd_mat n (vals cov) -> psd_mat p (vals Rp) -> psd_mat m (vals Rc) ->
  psd_mat n (exact_cov n p m A cov Pn Rp V Rc).
Proof.
  intros H1 H2 H3 y. unfold exact_cov. rewrite !form_plus.
  pose proof (sandwich_psd n n (vals A) _ H1 y). pose proof (sandwich_psd n p (vals Pn) _ H2 y). pose proof (sandwich_psd n m (vals V) _ H3 y). lra.
Qed.

(** ** C109: the error of the predicted covariance *)
Theorem C109_error_partial n p m A cov Pn Rp V Rc cov' i j :
  predicted_cov n p m A cov Pn Rp V Rc cov' -> (i < n)%nat -> (j < n)%nat -> finite (cov' i j) = true ->
  Rabs (val (cov' i j) - exact_cov n p m A cov Pn Rp V Rc i j) <= rounding n p m A cov Pn Rp V Rc i j.
Proof.
  intros (AP & PR & VR & H1 & H2 & H3 & H) Hi Hj F.
  set (t1 := fun k => (pairs n (A i) (fun l => cov l k), AP i k, A j k) : item).
  set (t2 := fun k => (pairs p (Pn i) (fun l => Rp l k), PR i k, Pn j k) : item).
  set (t3 := fun k => (pairs m (V i) (fun l => Rc l k), VR i k, V j k) : item).
  set (L := items n t1 ++ items p t2 ++ items m t3).
  assert (EL : pairs n (AP i) (A j) ++ pairs p (PR i) (Pn j) ++ pairs m (VR i) (V j) = outer L).
  { unfold L, outer, items, pairs. rewrite !map_app, !map_map. reflexivity. }
  assert (HL : Forall (inner_ok (n + p + m)) L).
  { unfold L. rewrite !Forall_app. unfold items. rewrite !Forall_map, !Forall_forall.
    repeat split; intros; match goal with H : In ?k (seq 0 _) |- _ => apply in_seq in H end; simpl; try (apply H1 || apply H2 || apply H3; lia); cbn [t1 t2 t3 it_l fst snd]; rewrite pairs_length; lia. }
  specialize (H i j Hi Hj). rewrite EL in H. pose proof (sums_error2 _ _ _ HL H F) as B.
  assert (Ll : length L = (n + p + m)%nat) by (unfold L; rewrite !app_length, !items_length; lia). rewrite Ll in B.
  destruct (items_ex2 n t1) as (a1 & b1 & c1), (items_ex2 p t2) as (a2 & b2 & c2), (items_ex2 m t3) as (a3 & b3 & c3).
  destruct (items_app2 (items n t1) (items p t2 ++ items m t3)) as (e1 & e2 & e3). destruct (items_app2 (items p t2) (items m t3)) as (f1 & f2 & f3).
  fold L in e1, e2, e3. rewrite f1, a1, a2, a3 in e1. rewrite f2, b1, b2, b3 in e2. rewrite f3, c1, c2, c3 in e3.
  assert (X : ex2 L = exact_cov n p m A cov Pn Rp V Rc i j).
  { rewrite e1. unfold exact_cov, sandwich, vals. rewrite Rplus_assoc. f_equal; [|f_equal]; apply rsum_ext; intros k _; cbn [t1 t2 t3 it_l it_b fst snd]; rewrite ex_pairs; reflexivity. }
  assert (Y : mag2 L = size_cov n p m A cov Pn Rp V Rc i j).
  { rewrite e2. unfold size_cov, sandwich, mags. rewrite Rplus_assoc. f_equal; [|f_equal]; apply rsum_ext; intros k _; cbn [t1 t2 t3 it_l it_b fst snd]; rewrite mag_pairs; reflexivity. }
  assert (Z : abs2 L = rows n p m A Pn V j) by (rewrite e3; unfold rows, mags; rewrite Rplus_assoc; reflexivity).
  rewrite X, Y, Z in B. unfold rounding. replace (2 * (n + p + m))%nat with (n + p + m + (n + p + m))%nat by lia.
  fold uu. fold tiny. fold (grow (n + p + m + (n + p + m))). eapply Rle_trans; [exact B|]. apply Req_le. ring.
Qed.
(** the predicted state A x + B u *)
Theorem C109_state_partial n m A B x u x' i : predicted_state n m A B x u x' -> (i < n)%nat -> finite (x' i) = true ->
  Rabs (val (x' i) - (rsum n (fun k => vals A i k * val (x k)) + rsum m (fun k => vals B i k * val (u k))))
    <= ((1 + bpow radix2 (-53)) ^ (n + m) - 1) * (rsum n (fun k => mags A i k * Rabs (val (x k))) + rsum m (fun k => mags B i k * Rabs (val (u k))))
       + INR (n + m) * bpow radix2 (-1075) * (1 + bpow radix2 (-53)) ^ (n + m).
Proof.
  intros (Ax & Bu & H) Hi F. destruct (H i Hi) as (H1 & H2 & Ex). rewrite Ex in F |- *.
  destruct (sums_error _ _ (sum_add _ _ _ _ H1 H2) F) as (_ & N). unfold near in N. rewrite app_length, ex_app, mag_app, !pairs_length, !ex_pairs, !mag_pairs in N.
  fold uu. fold tiny. fold (grow (n + m)). exact N.
Qed.
(** hence it is symmetric and positive semidefinite up to rounding *)
Theorem C109_symmetry_partial n p m A cov Pn Rp V Rc cov' i j :
  sym_mat n (vals cov) -> sym_mat p (vals Rp) -> sym_mat m (vals Rc) ->
  predicted_cov n p m A cov Pn Rp V Rc cov' -> (i < n)%nat -> (j < n)%nat -> finite_mat n n cov' ->
  Rabs (val (cov' i j) - val (cov' j i)) <= rounding n p m A cov Pn Rp V Rc i j + rounding n p m A cov Pn Rp V Rc j i.
Proof.
  intros S1 S2 S3 H Hi Hj F. pose proof (C109_error_partial n p m A cov Pn Rp V Rc cov' i j H Hi Hj (F i j Hi Hj)) as E1.
  pose proof (C109_error_partial n p m A cov Pn Rp V Rc cov' j i H Hj Hi (F j i Hj Hi)) as E2. rewrite (exact_sym n p m A cov Pn Rp V Rc S1 S2 S3 j i) in E2.
  set (e := exact_cov n p m A cov Pn Rp V Rc i j) in *. eapply Rle_trans; [apply (Rabs_step _ e)|]. rewrite (Rabs_minus_sym e). lra.
Qed.
Lemma form_err n M N D y : (forall i j, (i < n)%nat -> (j < n)%nat -> Rabs (M i j - N i j) <= D i j) ->
  form n N y - form n D (fun i => Rabs (y i)) <= form n M y.
Proof.
  intros H. unfold form.
  assert (E : rsum n (fun i => rsum n (fun j => y i * N i j * y j)) <=
     rsum n (fun i => rsum n (fun j => y i * M i j * y j)) + rsum n (fun i => rsum n (fun j => Rabs (y i) * D i j * Rabs (y j)))).
  { rewrite <- rsum_plus. apply rsum_le. intros i Hi. rewrite <- rsum_plus. apply rsum_le. intros j Hj.
    pose proof (H i j Hi Hj) as B. pose proof (Rle_abs (y i * (N i j - M i j) * y j)) as A. rewrite !Rabs_mult, Rabs_minus_sym in A.
    assert (C : Rabs (y i) * Rabs (M i j - N i j) * Rabs (y j) <= Rabs (y i) * D i j * Rabs (y j)).
    { apply Rmult_le_compat_r; [apply Rabs_pos|]. apply Rmult_le_compat_l; [apply Rabs_pos|exact B]. }
    replace (y i * N i j * y j) with (y i * M i j * y j + y i * (N i j - M i j) * y j) by ring. lra. }
  lra.
Qed.
Theorem C109_psd_partial n p m A cov Pn Rp V Rc cov' y :
  psd_mat n (vals cov) -> psd_mat p (vals Rp) -> psd_mat m (vals Rc) ->
  predicted_cov n p m A cov Pn Rp V Rc cov' -> finite_mat n n cov' ->
  - form n (rounding n p m A cov Pn Rp V Rc) (fun i => Rabs (y i)) <= form n (vals cov') y.
Proof.
  intros S1 S2 S3 H F. pose proof (exact_psd n p m A cov Pn Rp V Rc S1 S2 S3 y) as E.
  pose proof (form_err n (vals cov') (exact_cov n p m A cov Pn Rp V Rc) (rounding n p m A cov Pn Rp V Rc) y) as B.
  assert (form n (exact_cov n p m A cov Pn Rp V Rc) y - form n (rounding n p m A cov Pn Rp V Rc) (fun i => Rabs (y i)) <= form n (vals cov') y); [|lra].
  apply B. intros i j Hi Hj. apply C109_error_partial; auto.
Qed.

(** ** in numbers *)
Lemma grow_small k : (k <= 1000)%nat -> grow k <= 1 + bpow radix2 (-43).
Proof.
  intros H. pose proof uu_pos as U. pose proof uu_val as UV.
  assert (G : forall j, INR j * uu < 1 -> grow j * (1 - INR j * uu) <= 1).
  { induction j as [|j IH]; intros Hj; [simpl; unfold grow; simpl; lra|]. rewrite S_INR in *. rewrite grow_S. pose proof (grow_ge1 j) as G1. pose proof (pos_INR j) as P.
    assert (Q : (1 + uu) * (1 - (INR j + 1) * uu) <= 1 - INR j * uu) by nra.
    assert (Q2 : grow j * ((1 + uu) * (1 - (INR j + 1) * uu)) <= grow j * (1 - INR j * uu)) by (apply Rmult_le_compat_l; lra).
    assert (I : INR j * uu < 1) by nra. specialize (IH I). lra. }
  assert (K : INR k <= 1000) by (replace 1000 with (INR 1000) by (simpl; lra); apply le_INR, H). pose proof (pos_INR k) as K0.
  assert (Ku : INR k * uu <= 1000 * uu) by (apply Rmult_le_compat_r; lra). specialize (G k ltac:(lra)).
  assert (E : bpow radix2 (-43) = 1024 * uu) by (unfold uu; change (-43)%Z with (-53 + 10)%Z; rewrite bpow_plus; change (bpow radix2 10) with 1024; ring).
  rewrite E. pose proof (grow_ge1 k) as G1. assert (grow k * (1 - 1000 * uu) <= 1) by (eapply Rle_trans; [|exact G]; apply Rmult_le_compat_l; lra).
  assert (1 <= (1 + 1024 * uu) * (1 - 1000 * uu)) by nra. apply (Rmult_le_reg_r (1 - 1000 * uu)); lra.
Qed.
Lemma sandwich_mags_pos q A M i j : 0 <= sandwich q (mags A) (mags M) i j.
Proof. unfold sandwich, mags. apply rsum_pos. intros k _. apply Rmult_le_pos; [|apply Rabs_pos]. apply rsum_pos. intros l _. apply Rmult_le_pos; apply Rabs_pos. Qed.
Lemma size_pos n p m A cov Pn Rp V Rc i j : 0 <= size_cov n p m A cov Pn Rp V Rc i j.
Proof. unfold size_cov. pose proof (sandwich_mags_pos n A cov i j). pose proof (sandwich_mags_pos p Pn Rp i j). pose proof (sandwich_mags_pos m V Rc i j). lra. Qed.
Lemma rows_pos n p m A Pn V j : 0 <= rows n p m A Pn V j.
Proof. unfold rows, mags. repeat apply Rplus_le_le_0_compat; apply rsum_pos; intros; apply Rabs_pos. Qed.
Lemma rounding_small n p m A cov Pn Rp V Rc i j : (n + p + m <= 500)%nat ->
  rounding n p m A cov Pn Rp V Rc i j <= bpow radix2 (-43) * size_cov n p m A cov Pn Rp V Rc i j + bpow radix2 (-1065) * (1 + rows n p m A Pn V j).
Proof.
  intros H. unfold rounding. fold uu. fold (grow (2 * (n + p + m))). pose proof (grow_small (2 * (n + p + m)) ltac:(lia)) as G. pose proof (grow_ge1 (2 * (n + p + m))) as G1.
  pose proof (size_pos n p m A cov Pn Rp V Rc i j) as S. pose proof (rows_pos n p m A Pn V j) as Rw.
  apply Rplus_le_compat; [apply Rmult_le_compat_r; lra|]. apply Rmult_le_compat_r; [lra|].
  assert (K : INR (n + p + m) <= 500) by (replace 500 with (INR 500) by (simpl; lra); apply le_INR, H). pose proof (pos_INR (n + p + m)) as K0.
  change (-1065)%Z with (-1075 + 10)%Z. rewrite bpow_plus. change (bpow radix2 10) with 1024. pose proof (bpow_gt_0 radix2 (-1075)) as T.
  assert (B : bpow radix2 (-43) <= 1) by (change 1 with (bpow radix2 0); apply bpow_le; lia).
  rewrite Rmult_assoc. apply Rmult_le_compat_l; [lra|]. apply Rle_trans with (2 * 500); [apply Rmult_le_compat; lra|lra].
Qed.

(** moderate numbers do not overflow *)
Definition upto (e : Z) (x : f64) : Prop := finite x = true /\ Rabs (val x) <= bpow radix2 e.
Definition upto_mat (e : Z) (r c : nat) (M : fmat) : Prop := forall i j, (i < r)%nat -> (j < c)%nat -> upto e (M i j).
Lemma upto_sums a b l c : (-500 <= a <= 400)%Z -> (-500 <= b <= 400)%Z -> (length l <= 500)%nat ->
  Forall (fun q => upto a (fst q) /\ upto b (snd q)) l -> sums l c -> upto (a + b + 10) c.
Proof.
  intros Ha Hb Hl Hf Hs.
  assert (F : all_finite l) by (eapply Forall_impl; [|exact Hf]; intros q [[H _] [H' _]]; split; assumption).
  assert (M : mag l <= INR (length l) * bpow radix2 (a + b)).
  { clear Hl Hs F. induction Hf as [|q l [[_ H] [_ H']] _ IH]; cbn [mag length]; [simpl; lra|]. rewrite S_INR, Rabs_mult, bpow_plus in *.
    pose proof (Rmult_le_compat _ _ _ _ (Rabs_pos _) (Rabs_pos _) H H'). lra. }
  assert (B : bound l <= bpow radix2 (a + b + 10)).
  { unfold bound. pose proof (grow_small (length l) ltac:(lia)) as G. pose proof (grow_ge1 (length l)) as G1.
    assert (B1 : bpow radix2 (-43) <= 1) by (change 1 with (bpow radix2 0); apply bpow_le; lia).
    assert (K : INR (length l) <= 500) by (replace 500 with (INR 500) by (simpl; lra); apply le_INR, Hl). pose proof (pos_INR (length l)) as K0. pose proof (mag_pos l) as M0.
    rewrite (bpow_plus radix2 (a + b)). change (bpow radix2 10) with 1024. set (X := bpow radix2 (a + b)) in *.
    assert (T : tiny <= bpow radix2 (-75) * X) by (unfold tiny, X; rewrite <- bpow_plus; apply bpow_le; lia). pose proof tiny_pos as T0.
    assert (X0 : 0 < X) by apply bpow_gt_0. assert (C : bpow radix2 (-75) <= / 1024) by (change (/ 1024) with (bpow radix2 (-10)); apply bpow_le; lia).
    assert (T1 : tiny <= / 1024 * X) by (eapply Rle_trans; [exact T|apply Rmult_le_compat_r; lra]).
    assert (M1 : mag l <= 500 * X) by (eapply Rle_trans; [exact M|apply Rmult_le_compat_r; lra]).
    assert (Q1 : grow (length l) * mag l <= 2 * (500 * X)) by (apply Rmult_le_compat; lra).
    assert (Q2 : INR (length l) * tiny <= 500 * (/ 1024 * X)) by (apply Rmult_le_compat; lra).
    assert (Q3 : INR (length l) * tiny * grow (length l) <= 500 * (/ 1024 * X) * 2) by (apply Rmult_le_compat; try lra; apply Rmult_le_pos; lra). lra. }
  assert (BB : bound l <= big) by (eapply Rle_trans; [exact B|apply bpow_le; lia]).
  pose proof (sums_finite l c Hs F BB) as Fc. split; [exact Fc|]. eapply Rle_trans; [apply (near_bound l), (sums_error l c Hs Fc)|exact B].
Qed.
Lemma upto_pairs a b n f g : (forall k, (k < n)%nat -> upto a (f k) /\ upto b (g k)) -> Forall (fun q => upto a (fst q) /\ upto b (snd q)) (pairs n f g).
Proof. intros H. unfold pairs. rewrite Forall_map, Forall_forall. intros k Hk. apply in_seq in Hk. apply H. lia. Qed.
Theorem C109_finite n p m A cov Pn Rp V Rc cov' : (n + p + m <= 500)%nat ->
  upto_mat 100 n n A -> upto_mat 100 n n cov -> upto_mat 100 n p Pn -> upto_mat 100 p p Rp -> upto_mat 100 n m V -> upto_mat 100 m m Rc ->
  predicted_cov n p m A cov Pn Rp V Rc cov' -> finite_mat n n cov'.
Proof.
  intros HN U1 U2 U3 U4 U5 U6 (AP & PR & VR & H1 & H2 & H3 & H) i j Hi Hj.
  assert (P : forall q B M PM, (q <= 500)%nat -> upto_mat 100 n q B -> upto_mat 100 q q M -> product n q q B M PM -> upto_mat 210 n q PM).
  { intros q B M PM Hq UB UM HP a b Ha Hb. apply (upto_sums 100 100 (pairs q (B a) (fun k => M k b))); try lia; [rewrite pairs_length; lia| |apply HP; assumption].
    apply upto_pairs. intros k Hk. split; [apply UB|apply UM]; assumption. }
  pose proof (P n A cov AP ltac:(lia) U1 U2 H1) as V1. pose proof (P p Pn Rp PR ltac:(lia) U3 U4 H2) as V2. pose proof (P m V Rc VR ltac:(lia) U5 U6 H3) as V3.
  apply (upto_sums 210 100 (pairs n (AP i) (A j) ++ pairs p (PR i) (Pn j) ++ pairs m (VR i) (V j))); try lia; [rewrite !app_length, !pairs_length; lia| |apply H; assumption].
  rewrite !Forall_app. repeat split; apply upto_pairs; intros k Hk; split; auto.
Qed.
(** all together: up to 500 states, noises and controls, no number above 2^100 *)
Theorem C109_numbers_partial n p m A cov Pn Rp V Rc cov' i j : (n + p + m <= 500)%nat ->
  upto_mat 100 n n A -> upto_mat 100 n n cov -> upto_mat 100 n p Pn -> upto_mat 100 p p Rp -> upto_mat 100 n m V -> upto_mat 100 m m Rc ->
  predicted_cov n p m A cov Pn Rp V Rc cov' -> (i < n)%nat -> (j < n)%nat ->
  finite (cov' i j) = true /\
  Rabs (val (cov' i j) - exact_cov n p m A cov Pn Rp V Rc i j)
    <= bpow radix2 (-43) * size_cov n p m A cov Pn Rp V Rc i j + bpow radix2 (-1065) * (1 + rows n p m A Pn V j).
Proof.
  intros HN U1 U2 U3 U4 U5 U6 H Hi Hj. pose proof (C109_finite n p m A cov Pn Rp V Rc cov' HN U1 U2 U3 U4 U5 U6 H i j Hi Hj) as F. split; [exact F|].
  eapply Rle_trans; [apply C109_error_partial; assumption|apply rounding_small; exact HN].
Qed.

(** ** C109 as a user would want it, and why it fails *)
Definition C109_claim : Prop := forall n p m A cov Pn Rp V Rc cov',
  cov_mat n (vals cov) -> cov_mat p (vals Rp) -> cov_mat m (vals Rc) ->
  predicted_cov n p m A cov Pn Rp V Rc cov' -> finite_mat n n cov' ->
  sym_mat n (vals cov') /\ forall i, (i < n)%nat -> 0 <= val (cov' i i).
Definition fz (z : Z) : f64 := binary_normalize 53 1024 prec64_gt_0 prec64_lt mode_NE z 0 false.
Lemma fz_val z : (Z.abs z <= 2 ^ 53)%Z -> val (fz z) = IZR z.
Proof.
  intros H. pose proof (binary_normalize_correct 53 1024 prec64_gt_0 prec64_lt mode_NE z 0 false) as C. simpl round_mode in C.
  replace (F2R (Float radix2 z 0)) with (IZR z) in C by (unfold F2R; cbn [Fnum Fexp]; change (bpow radix2 0) with 1; ring).
  assert (F : fmt64 (IZR z)). { pose proof (grid_fmt 0 z ltac:(lia) H) as G. change (bpow radix2 (-0)) with 1 in G. rewrite Rmult_1_r in G. exact G. }
  cbv zeta in C. rewrite (rnd_id _ F) in C. rewrite Rlt_bool_true in C; [exact (proj1 C)|]. rewrite <- abs_IZR. apply Rle_lt_trans with (IZR (2 ^ 53)); [apply IZR_le, H|].
  change (IZR (2 ^ 53)) with (bpow radix2 53). apply bpow_lt. lia.
Qed.
(** two states; A = [156761 -208545; 0 5], covariance a a' for a = (260645, 195924); products from left to
    right: the first variance is predicted as -86536 (exactly: 265^2 = 70225), and the matrix is not symmetric *)
Definition mat2 (a b c d : f64) : fmat := fun i j => match i, j with 0, 0 => a | 0, _ => b | _, 0 => c | _, _ => d end%nat.
Definition bad_A : fmat := mat2 (fz 156761) (fz (-208545)) (fz 0) (fz 5).
Definition bad_P : fmat := mat2 (fz 67935816025) (fz 51066610980) (fz 51066610980) (fz 38386213776).
(** left to right, no fused operations *)
Definition plain2 (A B : fmat) : fmat := fun i j => fadd64 (fmul64 (A i 0%nat) (B 0%nat j)) (fmul64 (A i 1%nat) (B 1%nat j)).
Definition bad_P' : fmat := plain2 (plain2 bad_A bad_P) (fun i j => bad_A j i).
Lemma bad_runs Pn Rp V Rc : predicted_cov 2 0 0 bad_A bad_P Pn Rp V Rc bad_P'.
Proof.
  exists (plain2 bad_A bad_P), bad_A, bad_A. split; [|split; [|split]].
  - intros i j _ _. apply (sum_add [_] [_]); constructor.
  - intros i j _ Hj. lia.
  - intros i j _ Hj. lia.
  - intros i j _ _. cbn [pairs map seq app]. apply (sum_add [_] [_]); constructor.
Qed.
Lemma bad_entries : val (bad_P' 0%nat 0%nat) = -86536 /\ val (bad_P' 0%nat 1%nat) = 259599300 /\ val (bad_P' 1%nat 0%nat) = 259599296.
Proof.
  assert (E : bad_P' 0%nat 0%nat = fz (-86536) /\ bad_P' 0%nat 1%nat = fz 259599300 /\ bad_P' 1%nat 0%nat = fz 259599296).
  { repeat split; apply B2SF_inj; vm_compute; reflexivity. }
  destruct E as (-> & -> & ->). rewrite !fz_val by (vm_compute; discriminate). repeat split.
Qed.
Lemma cov_mat_0 M : cov_mat 0 M.
Proof. split; [intros i j Hi; lia|]. intros y. unfold form. simpl. lra. Qed.
Lemma bad_cov : cov_mat 2 (vals bad_P).
Proof.
  split.
  - intros [|[|i]] [|[|j]] Hi Hj; try lia; reflexivity.
  - intros y. unfold form, vals. cbn [rsum bad_P mat2]. rewrite !fz_val by (vm_compute; discriminate).
    replace (_ + _) with ((260645 * y 0%nat + 195924 * y 1%nat) * (260645 * y 0%nat + 195924 * y 1%nat)) by ring. apply Rle_0_sqr.
Qed.
Theorem C109_refuted : ~ C109_claim.
Proof.
  intros H. destruct (H 2%nat 0%nat 0%nat bad_A bad_P bad_A bad_A bad_A bad_A bad_P' bad_cov (cov_mat_0 _) (cov_mat_0 _) (bad_runs _ _ _ _)) as (_ & D).
  - intros [|[|i]] [|[|j]] Hi Hj; try lia; vm_compute; reflexivity.
  - specialize (D 0%nat ltac:(lia)). rewrite (proj1 bad_entries) in D. lra.
Qed.
(** also the symmetry alone fails *)
Theorem C109_not_symmetric : ~ sym_mat 2 (vals bad_P').
Proof.
  intros H. specialize (H 0%nat 1%nat ltac:(lia) ltac:(lia)). unfold vals in H. destruct bad_entries as (_ & E1 & E2). rewrite E1, E2 in H. lra.
Qed.
(** the hypotheses of the bounds are met by the same numbers *)
Example C109_nonvacuous : upto_mat 100 2 2 bad_A /\ upto_mat 100 2 2 bad_P /\ predicted_cov 2 0 0 bad_A bad_P bad_A bad_A bad_A bad_A bad_P' /\ cov_mat 2 (vals bad_P).
Proof.
  assert (U : forall z, (Z.abs z <= 2 ^ 53)%Z -> finite (fz z) = true -> upto 100 (fz z)).
  { intros z H F. split; [exact F|]. rewrite fz_val by exact H. rewrite <- abs_IZR. apply Rle_trans with (IZR (2 ^ 53)); [apply IZR_le, H|]. change (IZR (2 ^ 53)) with (bpow radix2 53). apply bpow_le. lia. }
  split; [|split; [|split; [apply bad_runs|apply bad_cov]]]; intros [|[|i]] [|[|j]] Hi Hj; try lia; apply U; (vm_compute; first [reflexivity|discriminate]).
Qed.
Example C109_state_nonvacuous : let x : fvec := fun i => match i with 0 => fz 1 | _ => fz 2 end%nat in
  let x' : fvec := fun i => fadd64 (fadd64 (fmul64 (bad_A i 0%nat) (x 0%nat)) (fmul64 (bad_A i 1%nat) (x 1%nat))) fzero in
  predicted_state 2 0 bad_A bad_A x x x' /\ finite (x' 0%nat) = true /\ x' 0%nat <> x 0%nat.
Proof.
  cbv zeta. split; [|split; [vm_compute; reflexivity|intros E; apply (f_equal B2SF) in E; vm_compute in E; discriminate E]].
  eexists (fun i => _), (fun _ => fzero). intros i _. split; [apply (sum_add [_] [_]); constructor|]. split; [constructor|reflexivity].
Qed.
