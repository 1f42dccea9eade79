(** C110: a correction of a Kalman filter or EKF in double arithmetic, for any dimensions and any order of
    the operations. *)
From Coq Require Import ZArith Reals Lra Lia Bool List Permutation.
From Flocq Require Import Core IEEE754.BinarySingleNaN.
From Verif Require Import Outcome FB_Model FloatTime AngleFloat KF_Float MatFloat Props_MatFloat.
Import ListNotations.
Open Scope R_scope.

(** ** Specification, on real numbers *)
Definition delta (i j : nat) : R := if Nat.eqb i j then 1 else 0.
(** (I - K C) P and x + K (z - C x), and the sizes of their terms *)
Definition exact_corr n k (C K P : rmat) (i j : nat) : R := rsum n (fun l => (delta i l - rsum k (fun a => K i a * C a l)) * P l j).
Definition size_corr n k (C K P : rmat) (i j : nat) : R := rsum n (fun l => (delta i l + rsum k (fun a => K i a * C a l)) * P l j).
Definition exact_state n k (C K : rmat) (x z : nat -> R) (i : nat) : R := x i + rsum k (fun a => (z a - rsum n (fun l => C a l * x l)) * K i a).
Definition size_state n k (C K : rmat) (x z : nat -> R) (i : nat) : R := x i + rsum k (fun a => (z a + rsum n (fun l => C a l * x l)) * K i a).
Definition rounding_corr n k (C K P : fmat) (i j : nat) : R :=
  ((1 + bpow radix2 (-53)) ^ (n + k + 1) - 1) * size_corr n k (mags C) (mags K) (mags P) i j
  + bpow radix2 (-1075) * (1 + bpow radix2 (-53)) ^ (n + k + 1) * (INR (k + 1) * rsum n (fun l => mags P l j) + INR n).
Definition rounding_state n k (C K : fmat) (x z : fvec) (i : nat) : R :=
  ((1 + bpow radix2 (-53)) ^ (n + k + 2) - 1) * size_state n k (mags C) (mags K) (fun l => Rabs (val (x l))) (fun a => Rabs (val (z a))) i
  + bpow radix2 (-1075) * (1 + bpow radix2 (-53)) ^ (n + k + 2) * (INR (n + 1) * rsum k (mags K i) + INR k).

(** ** The covariance *)
Lemma opp_val (a : f64) : val (fopp64 a) = - val a.
Proof. apply B2R_Bopp. Qed.
Lemma inner_ex k (K C : fmat) i l : ex ((fone, if Nat.eqb i l then fone else fzero) :: pairs k (fun a => fopp64 (K i a)) (fun a => C a l))
  = delta i l - rsum k (fun a => vals K i a * vals C a l).
Proof.
  cbn [ex fst snd]. rewrite ex_pairs, (proj2 one_ok). unfold delta, vals.
  rewrite (rsum_ext k _ (fun a => -1 * (val (K i a) * val (C a l)))) by (intros a _; rewrite opp_val; ring).
  rewrite rsum_scal. destruct (Nat.eqb i l); [rewrite (proj2 one_ok)|change (val fzero) with 0]; ring.
Qed.
Lemma inner_mag k (K C : fmat) i l : mag ((fone, if Nat.eqb i l then fone else fzero) :: pairs k (fun a => fopp64 (K i a)) (fun a => C a l))
  = delta i l + rsum k (fun a => mags K i a * mags C a l).
Proof.
  cbn [mag fst snd]. rewrite mag_pairs, (proj2 one_ok), Rmult_1_l. unfold delta, mags. f_equal.
  - destruct (Nat.eqb i l); [rewrite (proj2 one_ok), Rabs_R1|change (val fzero) with 0; rewrite Rabs_R0]; reflexivity.
  - apply rsum_ext. intros a _. rewrite opp_val, Rabs_Ropp. reflexivity.
Qed.
Theorem C110_covariance_partial n k C cov K cov' i j :
  corrected_cov n k C cov K cov' -> (i < n)%nat -> (j < n)%nat -> finite (cov' i j) = true ->
  Rabs (val (cov' i j) - exact_corr n k (vals C) (vals K) (vals cov) i j) <= rounding_corr n k C K cov i j.
Proof.
  intros (IKC & H1 & H2) Hi Hj F.
  set (t := fun l => ((fone, if Nat.eqb i l then fone else fzero) :: pairs k (fun a => fopp64 (K i a)) (fun a => C a l), IKC i l, cov l j) : item).
  assert (E : pairs n (IKC i) (fun l => cov l j) = outer (items n t)) by (unfold outer, items, pairs; rewrite map_map; reflexivity).
  assert (HL : Forall (inner_ok (k + 1)) (items n t)).
  { unfold items. rewrite Forall_map, Forall_forall. intros l Hl. apply in_seq in Hl. split; [apply H1; lia|]. cbn [t it_l fst snd length]. rewrite pairs_length. lia. }
  specialize (H2 i j Hi Hj). rewrite E in H2. pose proof (sums_error2 _ _ _ HL H2 F) as B. rewrite items_length in B.
  destruct (items_ex2 n t) as (a1 & b1 & c1). rewrite a1, b1, c1 in B.
  assert (X : rsum n (fun l => ex (it_l (t l)) * val (it_b (t l))) = exact_corr n k (vals C) (vals K) (vals cov) i j).
  { unfold exact_corr. apply rsum_ext. intros l _. cbn [t it_l it_b fst snd]. rewrite inner_ex. reflexivity. }
  assert (Y : rsum n (fun l => mag (it_l (t l)) * Rabs (val (it_b (t l)))) = size_corr n k (mags C) (mags K) (mags cov) i j).
  { unfold size_corr. apply rsum_ext. intros l _. cbn [t it_l it_b fst snd]. rewrite inner_mag. reflexivity. }
  rewrite X, Y in B. unfold rounding_corr. fold uu. fold tiny. rewrite Nat.add_assoc in B. exact B.
Qed.

(** how far (I - K C) P is from symmetric: by how much the gain misses its equation K S = P C', where
    S = C P C' + Q *)
Definition innov n (C P Q : rmat) (a b : nat) : R := sandwich n C P a b + Q a b.
Definition residual n k (C P Q K : rmat) (i a : nat) : R := rsum k (fun b => K i b * innov n C P Q b a) - rsum n (fun l => P i l * C a l).
Lemma corr_asymmetry n k C P Q K i j : sym_mat n P -> sym_mat k Q -> (i < n)%nat -> (j < n)%nat ->
  exact_corr n k C K P i j - exact_corr n k C K P j i
  = rsum k (fun a => K i a * residual n k C P Q K j a) - rsum k (fun a => residual n k C P Q K i a * K j a).
Proof.
  intros SP SQ Hi Hj.
  assert (D : forall i j, (i < n)%nat -> (j < n)%nat -> exact_corr n k C K P i j = P i j - rsum k (fun a => K i a * rsum n (fun l => P j l * C a l))).
  { clear i j Hi Hj. intros i j Hi Hj. unfold exact_corr.
    rewrite (rsum_ext n _ (fun l => delta i l * P l j + -1 * (rsum k (fun a => K i a * C a l) * P l j))) by (intros; ring). rewrite rsum_plus, rsum_scal.
    assert (E1 : rsum n (fun l => delta i l * P l j) = P i j).
    { clear - Hi. assert (G : forall q, rsum q (fun l => delta i l * P l j) = if (i <? q)%nat then P i j else 0).
      { induction q as [|q IH]; [reflexivity|]. cbn [rsum]. rewrite IH. unfold delta.
        destruct (Nat.ltb_spec i q), (Nat.ltb_spec i (S q)), (Nat.eqb_spec i q); try lia; subst; try ring. }
      rewrite G. destruct (Nat.ltb_spec i n); [reflexivity|lia]. }
    rewrite E1. unfold Rminus. apply Rplus_eq_compat_l.
    rewrite (rsum_ext n _ (fun l => rsum k (fun a => K i a * C a l * P l j))) by (intros; rewrite rsum_scal_r; reflexivity). rewrite rsum_swap.
    replace (- rsum k (fun a => K i a * rsum n (fun l => P j l * C a l))) with (-1 * rsum k (fun a => K i a * rsum n (fun l => P j l * C a l))) by ring.
    f_equal. apply rsum_ext. intros a _. rewrite <- rsum_scal. apply rsum_ext. intros l Hl. rewrite (SP l j Hl Hj). ring. }
  rewrite (D i j Hi Hj), (D j i Hj Hi), (SP i j Hi Hj).
  assert (R1 : forall i j, rsum k (fun a => K i a * residual n k C P Q K j a)
     = rsum k (fun a => rsum k (fun b => K i a * (K j b * innov n C P Q b a))) - rsum k (fun a => K i a * rsum n (fun l => P j l * C a l))).
  { intros i' j'. unfold residual. rewrite (rsum_ext k _ (fun a => K i' a * rsum k (fun b => K j' b * innov n C P Q b a) + -1 * (K i' a * rsum n (fun l => P j' l * C a l)))) by (intros; ring).
    rewrite rsum_plus, rsum_scal. rewrite (rsum_ext k (fun a => rsum k (fun b => K i' a * (K j' b * innov n C P Q b a))) (fun a => K i' a * rsum k (fun b => K j' b * innov n C P Q b a))) by (intros; rewrite rsum_scal; reflexivity). ring. }
  rewrite (rsum_ext k (fun a => residual n k C P Q K i a * K j a) (fun a => K j a * residual n k C P Q K i a)) by (intros; ring).
  rewrite (R1 i j), (R1 j i).
  assert (Sw : rsum k (fun a => rsum k (fun b => K i a * (K j b * innov n C P Q b a))) = rsum k (fun a => rsum k (fun b => K j a * (K i b * innov n C P Q b a)))).
  { rewrite rsum_swap. apply rsum_ext. intros b Hb. apply rsum_ext. intros a Ha. unfold innov. rewrite (sandwich_sym n C P SP b a), (SQ b a Hb Ha). ring. }
  rewrite Sw. ring.
Qed.
Theorem C110_symmetry_partial n k C cov Q K cov' i j :
  sym_mat n (vals cov) -> sym_mat k (vals Q) -> corrected_cov n k C cov K cov' -> (i < n)%nat -> (j < n)%nat -> finite_mat n n cov' ->
  Rabs (val (cov' i j) - val (cov' j i)) <= rounding_corr n k C K cov i j + rounding_corr n k C K cov j i
    + rsum k (fun a => mags K i a * Rabs (residual n k (vals C) (vals cov) (vals Q) (vals K) j a))
    + rsum k (fun a => Rabs (residual n k (vals C) (vals cov) (vals Q) (vals K) i a) * mags K j a).
Proof.
  intros SP SQ H Hi Hj F. pose proof (C110_covariance_partial n k C cov K cov' i j H Hi Hj (F i j Hi Hj)) as E1.
  pose proof (C110_covariance_partial n k C cov K cov' j i H Hj Hi (F j i Hj Hi)) as E2.
  pose proof (corr_asymmetry n k (vals C) (vals cov) (vals Q) (vals K) i j SP SQ Hi Hj) as E3.
  set (e := exact_corr n k (vals C) (vals K) (vals cov) i j) in *. set (f := exact_corr n k (vals C) (vals K) (vals cov) j i) in *.
  eapply Rle_trans; [apply (Rabs_step _ e)|]. assert (G : Rabs (e - val (cov' j i)) <= rounding_corr n k C K cov j i + Rabs (e - f)).
  { eapply Rle_trans; [apply (Rabs_step _ f)|]. rewrite (Rabs_minus_sym f). lra. }
  assert (B : Rabs (e - f) <= rsum k (fun a => mags K i a * Rabs (residual n k (vals C) (vals cov) (vals Q) (vals K) j a))
    + rsum k (fun a => Rabs (residual n k (vals C) (vals cov) (vals Q) (vals K) i a) * mags K j a)).
  { rewrite E3. unfold Rminus. eapply Rle_trans; [apply Rabs_triang|]. rewrite Rabs_Ropp. apply Rplus_le_compat; (eapply Rle_trans; [apply rsum_abs|]);
    apply rsum_le; intros a _; rewrite Rabs_mult; unfold mags, vals; apply Rle_refl. }
  lra.
Qed.

(** ** The state *)
Lemma sub_inv a b : finite (fsub64 a b) = true -> finite a = true /\ finite b = true /\ val (fsub64 a b) = rnd64 (val a - val b).
Proof.
  intros H. assert (Fa : finite a = true /\ finite b = true).
  { destruct a as [s|s| |s m e B], b as [s'|s'| |s' m' e' B']; try (split; reflexivity); try discriminate H; destruct s, s'; discriminate H. }
  destruct Fa as [Fa Fb]. split; [exact Fa|]. split; [exact Fb|].
  pose proof (Bminus_correct 53 1024 prec64_gt_0 prec64_lt mode_NE a b Fa Fb) as C. simpl round_mode in C. cbv zeta in C. revert C.
  case Rlt_bool_spec; intros Hr C; [exact (proj1 C)|]. apply proj1, sf_finite in C. unfold fsub64 in H. rewrite H in C. discriminate C.
Qed.
Lemma near_swap n f g r : near (pairs n f g) r -> near (pairs n g f) r.
Proof.
  unfold near. rewrite !pairs_length, !ex_pairs, !mag_pairs. intros H.
  rewrite (rsum_ext n (fun k => val (g k) * val (f k)) (fun k => val (f k) * val (g k))) by (intros; ring).
  rewrite (rsum_ext n (fun k => Rabs (val (g k)) * Rabs (val (f k))) (fun k => Rabs (val (f k)) * Rabs (val (g k)))) by (intros; ring). exact H.
Qed.
(** the innovation dz a is a computed value of the exact sum of the terms L a *)
Lemma state_core k d (L : nat -> list (f64 * f64)) (K dz : fvec) (x dx : f64) :
  (forall a, (a < k)%nat -> finite (dz a) = true -> Rabs (val (dz a) - ex (L a)) <= (grow d - 1) * mag (L a) + INR d * tiny * grow d) ->
  sums (pairs k K dz) dx -> finite (fadd64 x dx) = true ->
  Rabs (val (fadd64 x dx) - (val x + rsum k (fun a => ex (L a) * val (K a))))
    <= (grow (d + k + 1) - 1) * (Rabs (val x) + rsum k (fun a => mag (L a) * Rabs (val (K a))))
       + tiny * grow (d + k + 1) * (INR d * rsum k (fun a => Rabs (val (K a))) + INR k).
Proof.
  intros H1 Hs F. destruct (add_inv _ _ F) as (Fx & Fd & Vx). destruct (sums_error _ _ Hs Fd) as (Fo & N). apply near_swap in N.
  set (t := fun a => (L a, dz a, K a) : item).
  assert (E : pairs k dz K = outer (items k t)) by (unfold outer, items, pairs; rewrite map_map; reflexivity). rewrite E in N.
  assert (HL : Forall (fun t => Rabs (val (it_c t) - ex (it_l t)) <= (grow d - 1) * mag (it_l t) + INR d * tiny * grow d) (items k t)).
  { unfold items. rewrite Forall_map, Forall_forall. intros a Ha. pose proof (proj1 (in_seq k 0 a) Ha) as Hb. apply H1; [lia|].
    unfold all_finite in Fo. rewrite Forall_forall in Fo. apply (Fo (K a, dz a)). unfold pairs. apply in_map_iff. exists a. split; [reflexivity|exact Ha]. }
  pose proof (near2 d (items k t) (val dx) HL N) as B. rewrite items_length in B.
  destruct (items_ex2 k t) as (a1 & b1 & c1). rewrite a1, b1, c1 in B. cbn [t it_l it_b fst snd] in B.
  set (T := tiny * grow (k + d) * (INR d * rsum k (fun a => Rabs (val (K a))) + INR k)) in *.
  assert (T0 : 0 <= T). { unfold T. pose proof tiny_pos. pose proof (grow_ge1 (k + d)). pose proof (pos_INR d). pose proof (pos_INR k).
    assert (0 <= rsum k (fun a => Rabs (val (K a)))) by (apply rsum_pos; intros; apply Rabs_pos). repeat apply Rmult_le_pos; try lra. apply Rplus_le_le_0_compat; [apply Rmult_le_pos|]; lra. }
  rewrite Vx. replace (d + k + 1)%nat with (S (k + d)) by lia. rewrite grow_S.
  replace (tiny * ((1 + uu) * grow (k + d)) * (INR d * rsum k (fun a => Rabs (val (K a))) + INR k)) with ((1 + uu) * T) by (unfold T; ring).
  apply add_near; [apply fmt_val|apply fmt_val|apply grow_ge1|exact T0| |exact B].
  eapply Rle_trans; [apply rsum_abs|]. apply rsum_le. intros a _. rewrite Rabs_mult. apply Rmult_le_compat_r; [apply Rabs_pos|apply ex_mag].
Qed.
Theorem C110_state_partial n k C K x z x' i :
  corrected_state n k C K x z x' -> (i < n)%nat -> finite (x' i) = true ->
  Rabs (val (x' i) - exact_state n k (vals C) (vals K) (fun l => val (x l)) (fun a => val (z a)) i) <= rounding_state n k C K x z i.
Proof.
  intros (zp & dz & dx & H1 & H2) Hi F. destruct (H2 i Hi) as (Hs & Ex). rewrite Ex in F |- *.
  set (L := fun a => (fone, z a) :: pairs n (fun l => fopp64 (C a l)) x).
  assert (xe : forall a, ex (L a) = val (z a) - rsum n (fun l => vals C a l * val (x l))).
  { intros a. cbn [L fst snd ex]. rewrite ex_pairs, (proj2 one_ok). rewrite (rsum_ext n _ (fun l => -1 * (vals C a l * val (x l)))) by (intros l _; rewrite opp_val; unfold vals; ring). rewrite rsum_scal. ring. }
  assert (xm : forall a, mag (L a) = Rabs (val (z a)) + rsum n (fun l => mags C a l * Rabs (val (x l)))).
  { intros a. cbn [L fst snd mag]. rewrite mag_pairs, (proj2 one_ok), Rmult_1_l. f_equal. apply rsum_ext. intros l _. rewrite opp_val, Rabs_Ropp. reflexivity. }
  assert (B : forall a, (a < k)%nat -> finite (dz a) = true -> Rabs (val (dz a) - ex (L a)) <= (grow (n + 1) - 1) * mag (L a) + INR (n + 1) * tiny * grow (n + 1)).
  { intros a Ha Fda. rewrite xe, xm. destruct (H1 a Ha) as (Hz & Ed).
    rewrite Ed in Fda |- *. destruct (sub_inv _ _ Fda) as (Fz & Fp & Vd). destruct (sums_error _ _ Hz Fp) as (_ & Nz).
    unfold near in Nz. rewrite pairs_length, ex_pairs, mag_pairs in Nz.
    pose proof (add_near (val (z a)) (- val (zp a)) (- rsum n (fun l => vals C a l * val (x l))) (grow n) (rsum n (fun l => mags C a l * Rabs (val (x l)))) (INR n * tiny * grow n)) as A.
    rewrite Vd. unfold Rminus. replace (n + 1)%nat with (S n) by lia. rewrite grow_S, S_INR. pose proof tiny_pos as T. pose proof (grow_ge1 n) as G. pose proof (pos_INR n) as P. pose proof uu_pos as U.
    eapply Rle_trans; [apply A|].
    - apply fmt_val.
    - rewrite <- opp_val. apply fmt_val.
    - exact G.
    - repeat apply Rmult_le_pos; lra.
    - rewrite Rabs_Ropp. eapply Rle_trans; [apply rsum_abs|]. apply rsum_le. intros l _. rewrite Rabs_mult. unfold vals, mags. lra.
    - replace (- val (zp a) - - rsum n (fun l => vals C a l * val (x l))) with (- (val (zp a) - rsum n (fun l => vals C a l * val (x l)))) by ring. rewrite Rabs_Ropp. exact Nz.
    - apply Rplus_le_compat_l. replace ((INR n + 1) * tiny * ((1 + uu) * grow n)) with ((1 + uu) * (INR n * tiny * grow n) + tiny * ((1 + uu) * grow n)) by ring.
      assert (0 <= tiny * ((1 + uu) * grow n)) by (repeat apply Rmult_le_pos; lra). lra. }
  pose proof (state_core k (n + 1) L (K i) dz (x i) (dx i) B Hs F) as R.
  rewrite (rsum_ext k (fun a => ex (L a) * val (K i a)) (fun a => (val (z a) - rsum n (fun l => vals C a l * val (x l))) * vals K i a)) in R by (intros a _; rewrite xe; reflexivity).
  rewrite (rsum_ext k (fun a => mag (L a) * Rabs (val (K i a))) (fun a => (Rabs (val (z a)) + rsum n (fun l => mags C a l * Rabs (val (x l)))) * mags K i a)) in R by (intros a _; rewrite xm; reflexivity).
  unfold exact_state, rounding_state. fold uu. fold tiny. fold (grow (n + k + 2)). replace (n + k + 2)%nat with (n + 1 + k + 1)%nat by lia. exact R.
Qed.
(** the EKF: x + K (z - h) *)
Theorem C110_ekf_state_partial n k K x z h x' i :
  ekf_corrected_state n k K x z h x' -> (i < n)%nat -> finite (x' i) = true ->
  Rabs (val (x' i) - (val (x i) + rsum k (fun a => (val (z a) - val (h a)) * vals K i a)))
    <= ((1 + bpow radix2 (-53)) ^ (k + 2) - 1) * (Rabs (val (x i)) + rsum k (fun a => (Rabs (val (z a)) + Rabs (val (h a))) * mags K i a))
       + bpow radix2 (-1075) * (1 + bpow radix2 (-53)) ^ (k + 2) * (rsum k (mags K i) + INR k).
Proof.
  intros (dz & dx & H1 & H2) Hi F. destruct (H2 i Hi) as (Hs & Ex). rewrite Ex in F |- *.
  set (L := fun a => [(fone, z a); (fone, fopp64 (h a))]).
  assert (xe : forall a, ex (L a) = val (z a) - val (h a)) by (intros a; cbn [L fst snd ex]; rewrite opp_val, (proj2 one_ok); ring).
  assert (xm : forall a, mag (L a) = Rabs (val (z a)) + Rabs (val (h a))) by (intros a; cbn [L fst snd mag]; rewrite opp_val, (proj2 one_ok), !Rmult_1_l, Rabs_Ropp; ring).
  assert (B : forall a, (a < k)%nat -> finite (dz a) = true -> Rabs (val (dz a) - ex (L a)) <= (grow 1 - 1) * mag (L a) + INR 1 * tiny * grow 1).
  { intros a Ha Fda. rewrite xe, xm. rewrite (H1 a Ha) in Fda |- *. destruct (sub_inv _ _ Fda) as (Fz & Fh & Vd). rewrite Vd.
    assert (Fo : fmt64 (- val (h a))) by (rewrite <- opp_val; apply fmt_val).
    pose proof (rnd_err_plus (val (z a)) (- val (h a)) (fmt_val _) Fo) as E. pose proof (Rabs_triang (val (z a)) (- val (h a))) as T. rewrite Rabs_Ropp in T.
    pose proof uu_pos as U. pose proof tiny_pos as Ti. change (grow 1) with ((1 + uu) * 1). unfold Rminus in *. simpl INR.
    assert (Q : uu * Rabs (val (z a) + - val (h a)) <= uu * (Rabs (val (z a)) + Rabs (val (h a)))) by (apply Rmult_le_compat_l; lra).
    assert (0 <= tiny * uu) by (apply Rmult_le_pos; lra). lra. }
  pose proof (state_core k 1 L (K i) dz (x i) (dx i) B Hs F) as R.
  rewrite (rsum_ext k (fun a => ex (L a) * val (K i a)) (fun a => (val (z a) - val (h a)) * vals K i a)) in R by (intros a _; rewrite xe; reflexivity).
  rewrite (rsum_ext k (fun a => mag (L a) * Rabs (val (K i a))) (fun a => (Rabs (val (z a)) + Rabs (val (h a))) * mags K i a)) in R by (intros a _; rewrite xm; reflexivity).
  fold uu. fold tiny. fold (grow (k + 2)). replace (k + 2)%nat with (1 + k + 1)%nat by lia. simpl (INR 1) in R. rewrite Rmult_1_l in R. exact R.
Qed.

(** ** The gain P C' inv and the innovation covariance C P C' + Q *)
Theorem C110_gain_partial n k C cov inv K i a :
  gain n k C cov inv K -> (i < n)%nat -> (a < k)%nat -> finite (K i a) = true ->
  Rabs (val (K i a) - rsum k (fun b => rsum n (fun l => vals cov i l * vals C b l) * vals inv b a))
    <= ((1 + bpow radix2 (-53)) ^ (k + n) - 1) * rsum k (fun b => rsum n (fun l => mags cov i l * mags C b l) * mags inv b a)
       + bpow radix2 (-1075) * (1 + bpow radix2 (-53)) ^ (k + n) * (INR n * rsum k (fun b => mags inv b a) + INR k).
Proof.
  intros (PC & H1 & H2) Hi Ha F. set (t := fun b => (pairs n (cov i) (fun l => C b l), PC i b, inv b a) : item).
  assert (E : pairs k (PC i) (fun b => inv b a) = outer (items k t)) by (unfold outer, items, pairs; rewrite map_map; reflexivity).
  assert (HL : Forall (inner_ok n) (items k t)).
  { unfold items. rewrite Forall_map, Forall_forall. intros b Hb. apply in_seq in Hb. split; [apply H1; lia|]. cbn [t it_l fst snd]. rewrite pairs_length. lia. }
  specialize (H2 i a Hi Ha). rewrite E in H2. pose proof (sums_error2 _ _ _ HL H2 F) as B. rewrite items_length in B.
  destruct (items_ex2 k t) as (a1 & b1 & c1). rewrite a1, b1, c1 in B. fold uu. fold tiny. fold (grow (k + n)).
  rewrite (rsum_ext k (fun b => rsum n (fun l => vals cov i l * vals C b l) * vals inv b a) (fun b => ex (it_l (t b)) * val (it_b (t b)))) by (intros b _; cbn [t it_l it_b fst snd]; rewrite ex_pairs; reflexivity).
  rewrite (rsum_ext k (fun b => rsum n (fun l => mags cov i l * mags C b l) * mags inv b a) (fun b => mag (it_l (t b)) * Rabs (val (it_b (t b))))) by (intros b _; cbn [t it_l it_b fst snd]; rewrite mag_pairs; reflexivity).
  exact B.
Qed.
Lemma near_same l l' r : length l = length l' -> ex l = ex l' -> mag l = mag l' -> near l r -> near l' r.
Proof. unfold near. intros -> -> ->. auto. Qed.
Theorem C110_innovation_partial n k C cov Q S a b :
  innovation_cov n k C cov Q S -> (a < k)%nat -> (b < k)%nat -> finite (S a b) = true ->
  Rabs (val (S a b) - (vals Q a b + rsum n (fun l => rsum n (fun q => vals cov l q * vals C b q) * vals C a l)))
    <= ((1 + bpow radix2 (-53)) ^ (2 * (n + 1)) - 1) * (mags Q a b + rsum n (fun l => rsum n (fun q => mags cov l q * mags C b q) * mags C a l))
       + bpow radix2 (-1075) * (1 + bpow radix2 (-53)) ^ (2 * (n + 1)) * (INR (n + 1) * (1 + rsum n (mags C a)) + INR (n + 1)).
Proof.
  intros (PC & H1 & H2) Ha Hb F. set (t := fun l => (pairs n (cov l) (fun q => C b q), PC l b, C a l) : item). set (t0 := ([(fone, Q a b)], Q a b, fone) : item).
  specialize (H2 a b Ha Hb). destruct (sums_error _ _ H2 F) as (Fo & N).
  assert (N' : near (outer (t0 :: items n t)) (val (S a b))).
  { eapply near_same; [| | |exact N]; unfold outer, items; cbn [map length ex mag fst snd]; rewrite map_map; cbn [t t0 it_c it_b fst snd].
    - rewrite map_length, pairs_length, seq_length. reflexivity.
    - change (map (fun x => (PC x b, C a x)) (seq 0 n)) with (pairs n (fun l => PC l b) (C a)). rewrite !ex_pairs, Rmult_comm. f_equal. apply rsum_ext. intros; ring.
    - change (map (fun x => (PC x b, C a x)) (seq 0 n)) with (pairs n (fun l => PC l b) (C a)). rewrite !mag_pairs, Rmult_comm. f_equal. apply rsum_ext. intros; ring. }
  assert (HL : Forall (fun t => Rabs (val (it_c t) - ex (it_l t)) <= (grow (n + 1) - 1) * mag (it_l t) + INR (n + 1) * tiny * grow (n + 1)) (t0 :: items n t)).
  { inversion Fo as [|? ? F0 Fp]; subst. constructor.
    - apply near_weaken; [cbn [t0 it_l fst snd length]; lia|]. apply (sums_error [(fone, Q a b)]); [constructor|apply F0].
    - unfold items. rewrite Forall_map, Forall_forall. intros l Hl. apply near_weaken; [cbn [t it_l fst snd]; rewrite pairs_length; lia|].
      assert (Hl' := Hl). apply in_seq in Hl'. apply (sums_error _ _ (H1 l b ltac:(lia) Hb)).
      rewrite Forall_forall in Fp. apply (Fp (C a l, PC l b)). unfold pairs. apply in_map_iff. exists l. split; [reflexivity|exact Hl]. }
  pose proof (near2 (n + 1) _ _ HL N') as B. cbn [length ex2 mag2 abs2] in B. rewrite items_length in B.
  destruct (items_ex2 n t) as (a1 & b1 & c1). rewrite a1, b1, c1 in B. fold uu. fold tiny. fold (grow (2 * (n + 1))). replace (2 * (n + 1))%nat with (n + 1 + (n + 1))%nat by lia.
  cbn [t0 it_l it_b fst snd ex mag] in B. rewrite (proj2 one_ok), Rabs_R1, !Rmult_1_r, !Rmult_1_l, !Rplus_0_r in B.
  rewrite (rsum_ext n (fun l => rsum n (fun q => vals cov l q * vals C b q) * vals C a l) (fun l => ex (it_l (t l)) * val (it_b (t l)))) by (intros l _; cbn [t it_l it_b fst snd]; rewrite ex_pairs; reflexivity).
  rewrite (rsum_ext n (fun l => rsum n (fun q => mags cov l q * mags C b q) * mags C a l) (fun l => mag (it_l (t l)) * Rabs (val (it_b (t l))))) by (intros l _; cbn [t it_l it_b fst snd]; rewrite mag_pairs; reflexivity).
  unfold vals at 1, mags at 1. rewrite <- (Nat.add_1_r n) in B. exact B.
Qed.

(** ** C110 as a user would want it, and why it fails: one measurement, so that .inverse() is a division *)
Definition C110_claim : Prop := forall n C cov Q S inv K cov',
  cov_mat n (vals cov) -> 0 < val (Q 0%nat 0%nat) -> innovation_cov n 1 C cov Q S -> inv 0%nat 0%nat = fdiv64 fone (S 0%nat 0%nat) ->
  gain n 1 C cov inv K -> corrected_cov n 1 C cov K cov' -> finite_mat n n cov' ->
  sym_mat n (vals cov') /\ forall i, (i < n)%nat -> 0 <= val (cov' i i).
(** P = [734453 540677; 540677 910165], C = [216 0], Q = 2^-20: the first variance becomes negative, and the
    matrix is not symmetric *)
Definition c_P : fmat := mat2 (fz 734453) (fz 540677) (fz 540677) (fz 910165).
Definition c_C : fmat := mat2 (fz 216) (fz 0) (fz 0) (fz 0).
Definition c_q : f64 := binary_normalize 53 1024 prec64_gt_0 prec64_lt mode_NE 1 (-20) false.
Definition c_Q : fmat := mat2 c_q fzero fzero fzero.
Definition c_PC : fmat := plain2 c_P (fun i j => c_C j i).
Definition c_S : fmat := fun i j => fadd64 (c_Q i j) (fadd64 (fmul64 (c_C i 0%nat) (c_PC 0%nat j)) (fmul64 (c_C i 1%nat) (c_PC 1%nat j))).
Definition c_inv : fmat := fun _ _ => fdiv64 fone (c_S 0%nat 0%nat).
Definition c_K : fmat := fun i j => fmul64 (c_PC i 0%nat) (c_inv 0%nat j).
Definition c_IKC : fmat := fun i j => fadd64 (if Nat.eqb i j then fone else fzero) (fmul64 (fopp64 (c_K i 0%nat)) (c_C 0%nat j)).
Definition c_P' : fmat := plain2 c_IKC c_P.
Lemma c_runs : innovation_cov 2 1 c_C c_P c_Q c_S /\ gain 2 1 c_C c_P c_inv c_K /\ corrected_cov 2 1 c_C c_P c_K c_P'.
Proof.
  split; [|split].
  - exists c_PC. split; [intros i j _ _; apply (sum_add [_] [_]); constructor|]. intros i j _ _. apply (sum_add [_] [_; _]); [constructor|]. apply (sum_add [_] [_]); constructor.
  - exists c_PC. split; [intros i j _ _; apply (sum_add [_] [_]); constructor|]. intros i j _ _. constructor.
  - exists c_IKC. split; [intros i j _ _; apply (sum_add [_] [_]); constructor|]. intros i j _ _. apply (sum_add [_] [_]); constructor.
Qed.
Lemma c_cov : cov_mat 2 (vals c_P).
Proof.
  split.
  - intros [|[|i]] [|[|j]] Hi Hj; try lia; reflexivity.
  - intros y. unfold form, vals. cbn [rsum c_P mat2]. rewrite !fz_val by (vm_compute; discriminate).
    replace (_ + _) with (Rsqr (-647 * y 0%nat + -7 * y 1%nat) + Rsqr (562 * y 0%nat + 954 * y 1%nat)) by (unfold Rsqr; ring).
    pose proof (Rle_0_sqr (-647 * y 0%nat + -7 * y 1%nat)). pose proof (Rle_0_sqr (562 * y 0%nat + 954 * y 1%nat)). lra.
Qed.
Definition neg64 (x : f64) : bool := match x with B754_finite true _ _ _ => true | _ => false end.
Lemma neg64_val x : neg64 x = true -> val x < 0.
Proof. destruct x as [s|s| |[] m e B]; try discriminate. intros _. unfold B2R. apply F2R_lt_0. simpl. reflexivity. Qed.
Lemma c_q_pos : 0 < val c_q.
Proof.
  assert (N : neg64 (fopp64 c_q) = true) by (vm_compute; reflexivity). apply neg64_val in N. rewrite opp_val in N. lra.
Qed.
Theorem C110_refuted : ~ C110_claim.
Proof.
  intros H. destruct c_runs as (R1 & R2 & R3).
  destruct (H 2%nat c_C c_P c_Q c_S c_inv c_K c_P' c_cov c_q_pos R1 eq_refl R2 R3) as (_ & D).
  - intros [|[|i]] [|[|j]] Hi Hj; try lia; vm_compute; reflexivity.
  - specialize (D 0%nat ltac:(lia)). assert (N : neg64 (c_P' 0%nat 0%nat) = true) by (vm_compute; reflexivity). apply neg64_val in N. lra.
Qed.
Theorem C110_not_symmetric : ~ sym_mat 2 (vals c_P').
Proof.
  intros H. specialize (H 0%nat 1%nat ltac:(lia) ltac:(lia)). unfold vals in H.
  assert (N : neg64 (c_P' 0%nat 1%nat) = true) by (vm_compute; reflexivity). apply neg64_val in N.
  assert (Z : c_P' 1%nat 0%nat = fzero) by (apply B2SF_inj; vm_compute; reflexivity). rewrite Z in H. change (val fzero) with 0 in H. lra.
Qed.
(** the hypotheses of the bounds are met: the same correction, of state (1, 2) with reading 7 *)
Definition c_x : fvec := fun i => match i with 0 => fz 1 | _ => fz 2 end%nat.
Definition c_z : fvec := fun _ => fz 7.
Definition c_zp : fvec := fun a => fadd64 (fmul64 (c_C a 0%nat) (c_x 0%nat)) (fmul64 (c_C a 1%nat) (c_x 1%nat)).
Definition c_dx : fvec := fun i => fmul64 (c_K i 0%nat) (fsub64 (c_z 0%nat) (c_zp 0%nat)).
Definition c_x' : fvec := fun i => fadd64 (c_x i) (c_dx i).
Example C110_nonvacuous : cov_mat 2 (vals c_P) /\ sym_mat 1 (vals c_Q) /\ gain 2 1 c_C c_P c_inv c_K /\ corrected_cov 2 1 c_C c_P c_K c_P' /\ finite_mat 2 2 c_P'
  /\ corrected_state 2 1 c_C c_K c_x c_z c_x' /\ finite (c_x' 0%nat) = true /\ c_x' 0%nat <> c_x 0%nat.
Proof.
  destruct c_runs as (R1 & R2 & R3). split; [exact c_cov|]. split; [intros [|i] [|j] Hi Hj; try lia; reflexivity|]. split; [exact R2|]. split; [exact R3|]. split.
  { intros [|[|i]] [|[|j]] Hi Hj; try lia; vm_compute; reflexivity. }
  split.
  { exists c_zp, (fun a => fsub64 (c_z a) (c_zp a)), c_dx. split.
    - intros l _. split; [|reflexivity]. apply (sum_add [_] [_]); constructor.
    - intros i _. split; [|reflexivity]. apply (sum_prod (c_K i 0%nat)). }
  split; [vm_compute; reflexivity|]. intros E. apply (f_equal B2SF) in E. vm_compute in E. discriminate E.
Qed.
