(** C114: the square root of the covariance in double arithmetic. *)
From Coq Require Import ZArith Reals Lra Lia Bool List.
From Flocq Require Import Core IEEE754.BinarySingleNaN.
From Verif Require Import Outcome FB_Model FloatTime AngleFloat KF_Float MatFloat Props_MatFloat Props_MatFloatC UKFFloat Props_UKFFloat LltFloat.
Import ListNotations.
Open Scope R_scope.

(** ** Specification *)
(** the numbers in the n x n matrix P are finite and it is symmetric; v' P v >= delta * sum_i P_ii v_i^2 for every v:
    the eigenvalues of the correlation matrix are at least delta *)
Definition symmetric64 (n : nat) (P : fmat) : Prop := forall i j, (i < n)%nat -> (j < n)%nat -> finite (P i j) = true /\ val (P i j) = val (P j i).
Definition correlation_above (n : nat) (delta : R) (P : fmat) : Prop :=
  forall v, delta * rsum n (fun i => val (P i i) * (v i * v i)) <= rsum n (fun i => rsum n (fun j => v i * v j * val (P i j))).
Definition positive_definite64 (n : nat) (P : fmat) : Prop :=
  forall v, (exists i, (i < n)%nat /\ v i <> 0) -> 0 < rsum n (fun i => rsum n (fun j => v i * v j * val (P i j))).
(** L L', in exact arithmetic *)
Definition square_of (n : nat) (L : fmat) (i k : nat) : R := rsum n (fun j => val (L i j) * val (L k j)).
(** a UKF with the default parameters: the sigma points are x + and - the columns of L; their spread is
    L L' / c with c = n + lambda *)
Definition C114_claim : Prop := forall n P L c a2 lambda, (1 <= n)%nat -> millionth a2 -> ukf64_lambda n a2 fzero lambda -> c = fadd64 (f_of_nat n) lambda ->
  symmetric64 n P -> positive_definite64 n P -> ukf64_offsets n c P L ->
  forall i k, (i < n)%nat -> (k < n)%nat -> Rabs (square_of n L i k / val c - val (P i k)) <= sqrt (val (P i i)) * sqrt (val (P k k)).

(** ** Lemmas on one operation *)
Lemma grow2 k x : grow (k + 2) * x = (1 + uu) * (1 + uu) * (grow k * x).
Proof. rewrite grow_add. unfold grow at 2. simpl. ring. Qed.
Lemma mag_rest (A L : fmat) i k : mag ((fone, A i k) :: pairs k (fun j => fopp64 (L i j)) (L k)) = Rabs (val (A i k)) + rsum k (fun j => Rabs (val (L i j)) * Rabs (val (L k j))).
Proof.
  cbn [mag fst snd]. rewrite mag_pairs, (proj2 one_ok), Rmult_1_l. f_equal. apply rsum_ext. intros j _. rewrite opp_val, Rabs_Ropp. reflexivity.
Qed.
Lemma ex_rest (A L : fmat) i k : ex ((fone, A i k) :: pairs k (fun j => fopp64 (L i j)) (L k)) = val (A i k) - rsum k (fun j => val (L i j) * val (L k j)).
Proof.
  cbn [ex fst snd]. rewrite ex_pairs, (proj2 one_ok), Rmult_1_l. rewrite (rsum_ext k _ (fun j => -1 * (val (L i j) * val (L k j)))) by (intros j _; rewrite opp_val; ring). rewrite rsum_scal. ring.
Qed.
Lemma rest_error A L i k y : llt64_rest A L i k y -> finite y = true ->
  Rabs (val y - (val (A i k) - rsum k (fun j => val (L i j) * val (L k j))))
  <= (grow (S k) - 1) * (Rabs (val (A i k)) + rsum k (fun j => Rabs (val (L i j)) * Rabs (val (L k j)))) + INR (S k) * tiny * grow (S k).
Proof.
  intros H F. destruct (sums_error _ _ H F) as [_ N]. unfold near in N. rewrite ex_rest, mag_rest in N. cbn [length] in N. rewrite pairs_length in N. exact N.
Qed.
Lemma rest_finite A L i k y : llt64_rest A L i k y -> finite (A i k) = true -> (forall j, (j < k)%nat -> finite (L i j) = true /\ finite (L k j) = true) ->
  grow (S k) * (Rabs (val (A i k)) + rsum k (fun j => Rabs (val (L i j)) * Rabs (val (L k j)))) + INR (S k) * tiny * grow (S k) <= big -> finite y = true.
Proof.
  intros H FA FL B. apply (sums_finite _ _ H).
  - constructor; [split; [reflexivity|exact FA]|]. unfold pairs. apply Forall_map, Forall_forall. intros j Hj. apply in_seq in Hj. cbn [fst snd]. unfold fopp64. rewrite is_finite_Bopp. apply FL. lia.
  - unfold bound. rewrite mag_rest. cbn [length]. rewrite pairs_length. exact B.
Qed.
Lemma pos_pivot x : finite x = true -> Bleb x fzero = false -> 0 < val x.
Proof.
  intros F H. pose proof (Bleb_correct 53 1024 x fzero F eq_refl) as C. rewrite C in H. destruct (Rle_bool_spec (val x) (val fzero)); [discriminate|exact H0].
Qed.
Lemma val_min x : finite x = true -> 0 < val x -> bpow radix2 (-1074) <= val x.
Proof. intros F H. pose proof (abs_B2R_ge_emin 53 1024 x) as Q. rewrite Rabs_pos_eq in Q by lra. apply Q. destruct x; try discriminate F; try reflexivity. simpl in H. lra. Qed.
Lemma val_max (x : f64) : val x <= bpow radix2 1024.
Proof. pose proof (abs_B2R_lt_emax 53 1024 x) as Q. pose proof (Rle_abs (val x)). lra. Qed.
Lemma sqrt_error x : finite x = true -> 0 < val x -> finite (fsqrt64 x) = true /\ bpow radix2 (-538) <= val (fsqrt64 x) <= bpow radix2 513
  /\ Rabs (val (fsqrt64 x) * val (fsqrt64 x) - val x) <= ((1 + uu) * (1 + uu) - 1) * val x.
Proof.
  intros F H. pose proof (val_min x F H) as M. pose proof (val_max x) as M2.
  destruct (Bsqrt_correct 53 1024 prec64_gt_0 prec64_lt mode_NE x) as (V & Fi & _). fold (fsqrt64 x) in V, Fi. simpl round_mode in V.
  assert (F2 : finite (fsqrt64 x) = true). { rewrite Fi. destruct x as [s| | |s m e B]; try discriminate F; [reflexivity|]. destruct s; [|reflexivity]. exfalso. simpl in H. pose proof (F2R_lt_0 radix2 (Float radix2 (Z.neg m) e) eq_refl). simpl in H0. lra. }
  split; [exact F2|]. set (s := sqrt (val x)) in *. assert (Ss : s * s = val x) by (apply sqrt_sqrt; lra). assert (S0 : 0 <= s) by apply sqrt_pos.
  assert (L : bpow radix2 (-537) <= s).
  { replace (bpow radix2 (-537)) with (sqrt (bpow radix2 (-537) * bpow radix2 (-537))) by (apply sqrt_square, bpow_ge_0). rewrite <- bpow_plus. apply sqrt_le_1_alt. exact M. }
  assert (U : s <= bpow radix2 512).
  { replace (bpow radix2 512) with (sqrt (bpow radix2 512 * bpow radix2 512)) by (apply sqrt_square, bpow_ge_0). rewrite <- bpow_plus. apply sqrt_le_1_alt. exact M2. }
  assert (Nm : bpow radix2 (-1022) <= s) by (eapply Rle_trans; [|exact L]; apply bpow_le; lia).
  pose proof (rnd_rel s Nm) as [R1 R2]. pose proof uu_pos as P. pose proof uu_val as UV. rewrite V.
  split.
  - split.
    + replace (bpow radix2 (-538)) with (bpow radix2 (-537) * / 2) by (change (-538)%Z with (-537 + -1)%Z; rewrite bpow_plus; reflexivity).
      assert (bpow radix2 (-537) * / 2 <= s * (1 - uu)); [|lra]. assert (0 <= s) by lra. rewrite UV. nra.
    + change 513%Z with (512 + 1)%Z. rewrite bpow_plus. change (bpow radix2 1) with 2. assert (s * (1 + uu) <= s * 2) by (rewrite UV; apply Rmult_le_compat_l; lra). lra.
  - set (r := rnd64 s) in *. rewrite <- Ss. apply Rabs_le. split; nra.
Qed.
Lemma quotient_error y l q : finite y = true -> finite l = true -> bpow radix2 (-538) <= val l <= bpow radix2 513 -> quotient64 y l q ->
  (finite q = true -> Rabs (val q * val l - val y) <= ((1 + uu) * (1 + uu) - 1) * Rabs (val y) + tiny * val l) /\
  (Rabs (val y / val l) <= bpow radix2 990 -> finite q = true).
Proof.
  intros Fy Fl [L1 L2] Q. assert (L0 : 0 < val l) by (pose proof (bpow_gt_0 radix2 (-538)); lra). set (v := val l) in *. pose proof uu_pos as U. pose proof tiny_pos as T. pose proof uu_val as UV.
  assert (Ay : Rabs (val y / v) * v = Rabs (val y)) by (unfold Rdiv; rewrite Rabs_mult, Rabs_inv, (Rabs_pos_eq v) by lra; field; lra).
  destruct Q as [-> | ->].
  - split.
    + intros F. assert (V : val (fdiv64 y l) = rnd64 (val y / v)).
      { pose proof (Bdiv_correct 53 1024 prec64_gt_0 prec64_lt mode_NE y l ltac:(fold v; lra)) as C. simpl round_mode in C. revert C. case Rlt_bool_spec; intros _ C; [exact (proj1 C)|]. apply sf_finite in C. unfold fdiv64 in F. rewrite F in C. discriminate C. }
      rewrite V. pose proof (rnd_err (val y / v)) as E. replace (rnd64 (val y / v) * v - val y) with ((rnd64 (val y / v) - val y / v) * v) by (field; lra). rewrite Rabs_mult, (Rabs_pos_eq v) by lra.
      assert (E2 : Rabs (rnd64 (val y / v) - val y / v) * v <= (uu * Rabs (val y / v) + tiny) * v) by (apply Rmult_le_compat_r; lra).
      rewrite Rmult_plus_distr_r, Rmult_assoc, Ay in E2. pose proof (Rabs_pos (val y)). nra.
    + intros B. apply (div_ok y l Fy); [fold v; lra|]. eapply Rle_trans; [exact B|]. apply bpow_le. lia.
  - assert (I1 : bpow radix2 (-513) <= / v). { change (-513)%Z with (Z.opp 513). rewrite bpow_opp. apply Rinv_le_contravar; lra. }
    assert (I2 : / v <= bpow radix2 538). { change 538%Z with (Z.opp (-538)). rewrite bpow_opp. apply Rinv_le_contravar; [apply bpow_gt_0|exact L1]. }
    assert (I0 : 0 < / v) by (apply Rinv_0_lt_compat; exact L0).
    assert (Eq : val fone / val l = / v) by (rewrite (proj2 one_ok); fold v; field; lra).
    destruct (div_ok fone l (proj1 one_ok)) as [Fi Vi]; [fold v; lra|rewrite Eq, Rabs_pos_eq by lra; eapply Rle_trans; [exact I2|apply bpow_le; lia]|]. rewrite Eq in Vi.
    assert (Rr : / v * (1 - uu) <= rnd64 (/ v) <= / v * (1 + uu)) by (apply rnd_rel; eapply Rle_trans; [|exact I1]; apply bpow_le; lia).
    rewrite <- Vi in Rr. set (r := val (fdiv64 fone l)) in *.
    assert (R1 : 1 - uu <= r * v <= 1 + uu). { destruct Rr as [Ra Rb]. apply (Rmult_le_compat_r v) in Ra, Rb; try lra. rewrite Rmult_assoc, (Rmult_comm _ v), <- Rmult_assoc, Rinv_l in Ra by lra. rewrite (Rmult_comm (/ v)), Rmult_assoc, Rinv_l in Rb by lra. lra. }
    split.
    + intros F. destruct (mul_inv _ _ F) as (_ & _ & V). fold r in V. rewrite V. pose proof (rnd_err (val y * r)) as E.
      replace (rnd64 (val y * r) * v - val y) with ((rnd64 (val y * r) - val y * r) * v + val y * (r * v - 1)) by ring.
      eapply Rle_trans; [apply Rabs_triang|]. rewrite !Rabs_mult, (Rabs_pos_eq v) by lra.
      assert (E2 : Rabs (rnd64 (val y * r) - val y * r) * v <= (uu * Rabs (val y * r) + tiny) * v) by (apply Rmult_le_compat_r; lra).
      rewrite Rabs_mult in E2. assert (R0 : 0 <= r) by (destruct Rr as [Ra _]; assert (0 <= / v * (1 - uu)) by (apply Rmult_le_pos; [lra|rewrite UV; lra]); lra). rewrite (Rabs_pos_eq r) in E2 by exact R0.
      assert (E3 : Rabs (val y) * Rabs (r * v - 1) <= Rabs (val y) * uu) by (apply Rmult_le_compat_l; [apply Rabs_pos|apply Rabs_le; lra]).
      assert (E4 : Rabs (val y) * (r * v) <= Rabs (val y) * (1 + uu)) by (apply Rmult_le_compat_l; [apply Rabs_pos|lra]).
      assert (E5 : uu * (Rabs (val y) * (r * v)) <= uu * (Rabs (val y) * (1 + uu))) by (apply Rmult_le_compat_l; lra). lra.
    + intros B. apply (mul_ok y (fdiv64 fone l) Fy Fi). fold r. assert (E : val y * r = val y / v * (r * v)) by (field; lra). rewrite E, Rabs_mult.
      apply Rle_trans with (bpow radix2 990 * bpow radix2 1); [|rewrite <- bpow_plus; apply bpow_le; lia]. apply Rmult_le_compat; try apply Rabs_pos; [exact B|]. change (bpow radix2 1) with 2. apply Rabs_le. rewrite UV in R1. lra.
Qed.

(** ** One entry of the product L L' *)
Lemma entry_combine k y t M p l : 0 <= M -> 0 <= l -> Rabs (y - t) <= (grow (S k) - 1) * M + INR (S k) * tiny * grow (S k) -> Rabs t <= M ->
  Rabs (p - y) <= ((1 + uu) * (1 + uu) - 1) * Rabs y + tiny * l ->
  Rabs (p - t) <= (grow (k + 3) - 1) * M + tiny * grow (k + 3) * (INR (k + 1) + l).
Proof.
  intros M0 L0 H1 HM H2. replace (k + 3)%nat with (S k + 2)%nat by lia. replace (k + 1)%nat with (S k) by lia. pose proof uu_pos as U. pose proof tiny_pos as T.
  pose proof (grow2 (S k) 1) as G2. rewrite !Rmult_1_r in G2. pose proof (grow_ge1 (S k)) as G1. set (g := grow (S k)) in *. rewrite G2. set (h := (1 + uu) * (1 + uu)) in *. assert (H : 1 <= h) by (unfold h; nra).
  set (c := INR (S k)) in *. assert (C0 : 0 <= c) by apply pos_INR.
  pose proof (Rabs_step p y t) as S1. pose proof (Rabs_step y t 0) as S2. rewrite !Rminus_0_r in S2.
  assert (Y : Rabs y <= g * M + c * tiny * g) by lra.
  assert (Q : (h - 1) * Rabs y <= (h - 1) * (g * M + c * tiny * g)) by (apply Rmult_le_compat_l; lra).
  assert (Q2 : tiny * l * 1 <= tiny * l * (h * g)) by (apply Rmult_le_compat_l; [apply Rmult_le_pos; lra|nra]).
  replace ((h * g - 1) * M + tiny * (h * g) * (c + l)) with ((g - 1) * M + c * tiny * g + (h - 1) * (g * M + c * tiny * g) + tiny * l * (h * g)) by ring. lra.
Qed.
Lemma rsum_abs2 k (f g : nat -> R) : Rabs (rsum k (fun j => f j * g j)) <= rsum k (fun j => Rabs (f j) * Rabs (g j)).
Proof. eapply Rle_trans; [apply rsum_abs|]. apply rsum_le. intros j _. rewrite Rabs_mult. lra. Qed.
Lemma diag_error A L k x : llt64_rest A L k k x -> finite x = true -> Bleb x fzero = false -> L k k = fsqrt64 x ->
  Rabs (val (A k k) - rsum (S k) (fun j => val (L k j) * val (L k j)))
  <= (grow (k + 3) - 1) * (Rabs (val (A k k)) + rsum k (fun j => Rabs (val (L k j)) * Rabs (val (L k j)))) + tiny * grow (k + 3) * INR (k + 1).
Proof.
  intros H F P E. pose proof (pos_pivot x F P) as X0. destruct (sqrt_error x F X0) as (_ & _ & S). rewrite <- E in S. pose proof (rest_error _ _ _ _ _ H F) as R1.
  cbn [rsum]. rewrite Rabs_minus_sym. set (t := rsum k (fun j => val (L k j) * val (L k j))) in *.
  replace (t + val (L k k) * val (L k k) - val (A k k)) with (val (L k k) * val (L k k) - (val (A k k) - t)) by ring.
  rewrite <- (Rplus_0_r (INR (k + 1))). eapply entry_combine; [|lra|exact R1| |].
  - apply Rplus_le_le_0_compat; [apply Rabs_pos|]. apply rsum_pos. intros; apply Rmult_le_pos; apply Rabs_pos.
  - unfold t, Rminus. eapply Rle_trans; [apply Rabs_triang|]. rewrite Rabs_Ropp. apply Rplus_le_compat_l. apply rsum_abs2.
  - rewrite Rmult_0_r, Rplus_0_r, (Rabs_pos_eq (val x)) by lra. exact S.
Qed.
Lemma off_error A L i k y : llt64_rest A L i k y -> finite y = true -> finite (L k k) = true -> bpow radix2 (-538) <= val (L k k) <= bpow radix2 513 -> quotient64 y (L k k) (L i k) -> finite (L i k) = true ->
  Rabs (val (A i k) - rsum (S k) (fun j => val (L i j) * val (L k j)))
  <= (grow (k + 3) - 1) * (Rabs (val (A i k)) + rsum k (fun j => Rabs (val (L i j)) * Rabs (val (L k j)))) + tiny * grow (k + 3) * (INR (k + 1) + val (L k k)).
Proof.
  intros H F Fl Rl Q Fq. pose proof (rest_error _ _ _ _ _ H F) as R1. destruct (quotient_error _ _ _ F Fl Rl Q) as [E _]. specialize (E Fq).
  cbn [rsum]. rewrite Rabs_minus_sym. set (t := rsum k (fun j => val (L i j) * val (L k j))) in *.
  replace (t + val (L i k) * val (L k k) - val (A i k)) with (val (L i k) * val (L k k) - (val (A i k) - t)) by ring.
  eapply entry_combine; [| |exact R1| |exact E].
  - apply Rplus_le_le_0_compat; [apply Rabs_pos|]. apply rsum_pos. intros; apply Rmult_le_pos; apply Rabs_pos.
  - pose proof (bpow_ge_0 radix2 (-538)). lra.
  - unfold t, Rminus. eapply Rle_trans; [apply Rabs_triang|]. rewrite Rabs_Ropp. apply Rplus_le_compat_l. apply rsum_abs2.
Qed.

(** ** Backward error *)
(** if every pivot is positive and L is finite, L L' is the matrix, up to rounding *)
Theorem C114_backward_partial n A L : llt64 n A L -> llt64_succeeds n A L -> (forall i j, (j <= i < n)%nat -> finite (L i j) = true) ->
  forall i k, (k <= i < n)%nat ->
  Rabs (square_of n L i k - val (A i k)) <= ((1 + bpow radix2 (-53)) ^ (k + 3) - 1) * (Rabs (val (A i k)) + rsum k (fun j => Rabs (val (L i j)) * Rabs (val (L k j))))
    + bpow radix2 (-1075) * (1 + bpow radix2 (-53)) ^ (k + 3) * (INR (k + 1) + val (L k k)).
Proof.
  intros (Z & _) H F i k Hk. unfold square_of. rewrite (rsum_cut n (S k)) by (try (intros j Hj; rewrite (Z k j) by lia; change (val fzero) with 0; ring); lia). rewrite Rabs_minus_sym.
  destruct (H k ltac:(lia)) as ((x & Hx & Px & Ex) & Ho). pose proof (F k k ltac:(lia)) as Fk.
  assert (Fx : finite x = true). { rewrite Ex in Fk. destruct (Bsqrt_correct 53 1024 prec64_gt_0 prec64_lt mode_NE x) as (_ & Fi & _). unfold fsqrt64 in Fk. rewrite Fk in Fi. destruct x as [s| | |s m e B]; try discriminate Fi; reflexivity. }
  pose proof (pos_pivot x Fx Px) as X0. destruct (sqrt_error x Fx X0) as (_ & Rl & _). rewrite <- Ex in Rl. pose proof (bpow_ge_0 radix2 (-538)) as B0.
  destruct (Nat.eq_dec i k) as [->|N].
  - eapply Rle_trans; [exact (diag_error A L k x Hx Fx Px Ex)|]. fold uu. fold (grow (k + 3)). fold tiny. apply Rplus_le_compat_l. apply Rmult_le_compat_l; [|lra]. apply Rmult_le_pos; [pose proof tiny_pos; lra|pose proof (grow_ge1 (k + 3)); lra].
  - destruct (Ho i ltac:(lia)) as (y & Hy & Q). pose proof (F i k ltac:(lia)) as Fi. apply (off_error A L i k y Hy); auto.
    destruct Q as [Q|Q]; rewrite Q in Fi.
    + destruct y as [s|s| |s m e B]; try reflexivity; destruct (L k k) as [s'|s'| |s' m' e' B']; try discriminate Fk; try discriminate Fi.
    + apply mul_inv in Fi. apply Fi.
Qed.

(** ** When the factorization succeeds *)
Lemma cs_bound k (f g : nat -> R) d e : 0 < d -> 0 < e -> rsum k (fun j => f j * f j) <= d * d -> rsum k (fun j => g j * g j) <= e * e -> rsum k (fun j => Rabs (f j) * Rabs (g j)) <= d * e.
Proof.
  intros D E Hf Hg. assert (Id : 0 < / d) by (apply Rinv_0_lt_compat; exact D). assert (Ie : 0 < / e) by (apply Rinv_0_lt_compat; exact E).
  apply Rle_trans with (rsum k (fun j => (/ 2 * (e * / d)) * (f j * f j) + (/ 2 * (d * / e)) * (g j * g j))).
  - apply rsum_le. intros j _. replace (f j * f j) with (Rabs (f j) * Rabs (f j)) by (rewrite <- Rabs_mult, Rabs_pos_eq; [reflexivity|apply Rle_0_sqr]).
    replace (g j * g j) with (Rabs (g j) * Rabs (g j)) by (rewrite <- Rabs_mult, Rabs_pos_eq; [reflexivity|apply Rle_0_sqr]).
    set (a := Rabs (f j)). set (b := Rabs (g j)). pose proof (Rle_0_sqr (e * a - d * b)) as Q. unfold Rsqr in Q.
    apply (Rmult_le_compat_l (/ 2 * / d * / e)) in Q; [|repeat apply Rmult_le_pos; lra]. rewrite Rmult_0_r in Q.
    replace (/ 2 * / d * / e * ((e * a - d * b) * (e * a - d * b))) with (/ 2 * (e * / d) * (a * a) + / 2 * (d * / e) * (b * b) - a * b) in Q by (field; lra). lra.
  - rewrite rsum_plus, !rsum_scal. apply (Rmult_le_compat_l (/ 2 * (e * / d))) in Hf; [|repeat apply Rmult_le_pos; lra]. apply (Rmult_le_compat_l (/ 2 * (d * / e))) in Hg; [|repeat apply Rmult_le_pos; lra].
    replace (/ 2 * (e * / d) * (d * d)) with (/ 2 * (d * e)) in Hf by (field; lra). replace (/ 2 * (d * / e) * (e * e)) with (/ 2 * (d * e)) in Hg by (field; lra). lra.
Qed.
Definition cond (n : nat) (delta : R) (A : fmat) : Prop :=
  symmetric64 n A /\ (forall i, (i < n)%nat -> bpow radix2 (-900) <= val (A i i) <= bpow radix2 900) /\ correlation_above n delta A.
Theorem llt_success n A L : (Z.of_nat n < 65536)%Z -> llt64 n A L -> cond n (4 * (INR n + 4) * (INR n + 4) * bpow radix2 (-53)) A ->
  llt64_succeeds n A L /\ (forall i j, (j <= i < n)%nat -> finite (L i j) = true) /\
  forall i k, (k <= i < n)%nat -> Rabs (val (A i k) - rsum (S k) (fun j => val (L i j) * val (L k j))) <= 4 * (INR n + 4) * bpow radix2 (-53) * (sqrt (val (A i i)) * sqrt (val (A k k))).
Proof.
  intros Hn (Z & f & Hf & Hc & Hs) (FA & RA & PD). fold uu in *. set (N := INR n) in *. assert (N0 : 0 <= N) by apply pos_INR. assert (N1 : N <= 65535) by (unfold N; rewrite INR_IZR_INZ; apply IZR_le; lia).
  pose proof uu_pos as U. pose proof uu_val as UV. pose proof tiny_pos as T. pose proof tiny_small as TS.
  set (eta := 4 * (N + 4) * uu) in *. set (delta := 4 * (N + 4) * (N + 4) * uu) in *. set (d := fun i => sqrt (val (A i i))). set (a := vals A) in *. set (l := vals L).
  assert (E0 : 0 < eta) by (unfold eta; repeat apply Rmult_lt_0_compat; lra).
  assert (E1 : eta <= / 1000). { unfold eta. rewrite UV. lra. }
  assert (DE : delta = eta * N + 4 * eta) by (unfold delta, eta; ring).
  assert (Sy : forall p q, (p < n)%nat -> (q < n)%nat -> a p q = a q p) by (intros p q Hp Hq; apply (FA p q Hp Hq)).
  assert (D : forall p, (p < n)%nat -> 0 < d p /\ a p p = d p * d p).
  { intros p Hp. destruct (RA p Hp) as [R1 _]. assert (0 < val (A p p)) by (pose proof (bpow_gt_0 radix2 (-900)); lra). unfold d, a, vals. split; [apply sqrt_lt_R0; exact H|rewrite sqrt_sqrt; lra]. }
  assert (D9 : forall p, (p < n)%nat -> bpow radix2 (-450) <= d p <= bpow radix2 450).
  { intros p Hp. destruct (RA p Hp) as [R1 R2]. unfold d. split.
    - replace (bpow radix2 (-450)) with (sqrt (bpow radix2 (-450) * bpow radix2 (-450))) by (apply sqrt_square, bpow_ge_0). rewrite <- bpow_plus. apply sqrt_le_1_alt. exact R1.
    - replace (bpow radix2 450) with (sqrt (bpow radix2 450 * bpow radix2 450)) by (apply sqrt_square, bpow_ge_0). rewrite <- bpow_plus. apply sqrt_le_1_alt. exact R2. }
  assert (DD : forall p q, (p < n)%nat -> (q < n)%nat -> bpow radix2 (-900) <= d p * d q <= bpow radix2 900).
  { intros p q Hp Hq. change (-900)%Z with (-450 + -450)%Z. change 900%Z with (450 + 450)%Z. rewrite !bpow_plus. destruct (D9 p Hp), (D9 q Hq). split; apply Rmult_le_compat; try assumption; try apply bpow_ge_0; pose proof (bpow_ge_0 radix2 (-450)); lra. }
  assert (De0 : 0 <= delta) by (rewrite DE; assert (0 <= eta * N) by (apply Rmult_le_pos; lra); lra).
  assert (Aij : forall p q, (p < n)%nat -> (q < n)%nat -> Rabs (a p q) <= d p * d q) by (intros p q Hp Hq; apply (entry_bound n a d delta p q Sy D De0 PD Hp Hq)).
  assert (Zl : forall p q, (p < q)%nat -> l p q = 0) by (intros p q Hpq; unfold l, vals; rewrite (Z p q Hpq); reflexivity).
  assert (TN : tiny * 2 * N + 4 * tiny <= uu * bpow radix2 (-900)).
  { apply Rle_trans with (bpow radix2 18 * tiny); [change (bpow radix2 18) with 262144; assert (tiny * N <= tiny * 65535) by (apply Rmult_le_compat_l; lra); lra|]. unfold tiny, uu. rewrite <- !bpow_plus. apply bpow_le. lia. }
  assert (TD : forall p, (p < n)%nat -> 4 * tiny <= uu * d p).
  { intros p Hp. apply Rle_trans with (uu * bpow radix2 (-450)); [|apply Rmult_le_compat_l; [lra|apply D9, Hp]]. change 4 with (bpow radix2 2). unfold tiny, uu. rewrite <- !bpow_plus. apply bpow_le. lia. }
  assert (GR : forall k, (k < n)%nat -> grow (k + 3) - 1 <= 2 * (N + 2) * uu /\ grow (S k) <= grow (k + 3) /\ grow (k + 3) <= 2).
  { intros k Hk. assert (K : INR (k + 3) <= N + 2) by (unfold N; replace (INR n + 2) with (INR (n + 2)) by (rewrite plus_INR; simpl; ring); apply le_INR; lia).
    assert (K2 : INR (k + 3) * uu <= (N + 2) * uu) by (apply Rmult_le_compat_r; lra). assert (K3 : (N + 2) * uu <= / 1000) by (rewrite UV; lra).
    pose proof (grow_lin (k + 3) ltac:(lra)). split; [lra|]. split; [apply grow_le; lia|lra]. }
  (* the invariant *)
  assert (INV : forall J, (J <= n)%nat -> (J <= f)%nat /\ (forall j, (j < J)%nat -> 0 < l j j) /\
     (forall p q, (q < J)%nat -> (q <= p < n)%nat -> finite (L p q) = true /\ Rabs (a p q - rsum (S q) (fun m => l p m * l q m)) <= eta * (d p * d q))).
  { induction J as [|J IH]; intros HJ; [split; [lia|]; split; intros; lia|].
    destruct (IH ltac:(lia)) as (Jf & Lp & Er). clear IH.
    assert (SJ : forall i, (J <= i < n)%nat -> rsum J (fun m => l i m * l i m) <= a i i - 4 * eta * a i i).
    { intros i Hi. pose proof (column_leaves n a d l delta eta J i Sy D ltac:(lra) PD Zl) as C. replace (delta - eta * INR n) with (4 * eta) in C by (fold N; rewrite DE; ring). apply C; auto.
      - intros j Hj. pose proof (Lp j Hj). lra.
      - intros p q Hq Hp. apply Er; assumption.
      - fold N. rewrite DE. lra. }
    assert (CS : forall i, (J <= i < n)%nat -> rsum J (fun j => Rabs (l i j) * Rabs (l J j)) <= d i * d J).
    { intros i Hi. assert (S1 : forall p, (J <= p < n)%nat -> rsum J (fun m => l p m * l p m) <= d p * d p).
      { intros p Hp. pose proof (SJ p Hp) as S. destruct (D p ltac:(lia)) as [dp Ap]. rewrite Ap in S. assert (0 <= 4 * eta * (d p * d p)) by (repeat apply Rmult_le_pos; lra). lra. }
      apply cs_bound; [apply D; lia|apply D; lia|apply S1; lia|apply S1; lia]. }
    destruct (GR J ltac:(lia)) as (G1 & G2 & G3). pose proof (grow_ge1 (S J)) as G4.
    assert (MB : forall i, (J <= i < n)%nat -> Rabs (a i J) + rsum J (fun j => Rabs (l i j) * Rabs (l J j)) <= 2 * (d i * d J)).
    { intros i Hi. pose proof (Aij i J ltac:(lia) ltac:(lia)). pose proof (CS i Hi). lra. }
    assert (TJ : forall i, (J <= i < n)%nat -> INR (S J) * tiny * grow (S J) <= uu * (d i * d J)).
    { intros i Hi. assert (K : INR (S J) <= N) by (apply le_INR; lia). pose proof (pos_INR (S J)) as K0. destruct (DD i J ltac:(lia) ltac:(lia)) as [DD1 _]. apply Rle_trans with (tiny * 2 * N).
      - assert (INR (S J) * tiny <= N * tiny) by (apply Rmult_le_compat_r; lra). assert (0 <= N * tiny) by (apply Rmult_le_pos; lra). apply Rle_trans with (N * tiny * 2); [|lra]. apply Rmult_le_compat; try lra. apply Rmult_le_pos; lra.
      - assert (uu * bpow radix2 (-900) <= uu * (d i * d J)) by (apply Rmult_le_compat_l; lra). lra. }
    assert (FR : forall i y, (J <= i < n)%nat -> llt64_rest A L i J y -> finite y = true /\
       Rabs (val y - (a i J - rsum J (fun j => l i j * l J j))) <= eta * (d i * d J)).
    { intros i y Hi Hy. destruct (DD i J ltac:(lia) ltac:(lia)) as [DD1 DD2]. pose proof (bpow_gt_0 radix2 (-900)) as B9. pose proof (MB i Hi) as M. pose proof (TJ i Hi) as TJi.
      assert (M0 : 0 <= Rabs (a i J) + rsum J (fun j => Rabs (l i j) * Rabs (l J j))) by (apply Rplus_le_le_0_compat; [apply Rabs_pos|apply rsum_pos; intros; apply Rmult_le_pos; apply Rabs_pos]).
      assert (U1 : uu <= / 1000) by (rewrite UV; lra).
      assert (Fy : finite y = true).
      { apply (rest_finite A L i J y Hy); [apply FA; lia| |].
        - intros j Hj. split; apply Er; lia.
        - fold (l i) (l J). change (val (A i J)) with (a i J). change (fun j : nat => Rabs (val (L i j)) * Rabs (val (L J j))) with (fun j => Rabs (l i j) * Rabs (l J j)).
          assert (Q : grow (S J) * (Rabs (a i J) + rsum J (fun j => Rabs (l i j) * Rabs (l J j))) <= 2 * (2 * (d i * d J))) by (apply Rmult_le_compat; lra).
          assert (Q2 : uu * (d i * d J) <= d i * d J) by (rewrite <- (Rmult_1_l (d i * d J)) at 2; apply Rmult_le_compat_r; lra).
          apply Rle_trans with (bpow radix2 3 * bpow radix2 900); [change (bpow radix2 3) with 8; lra|]. rewrite <- bpow_plus. apply bpow_le. lia. }
      split; [exact Fy|]. pose proof (rest_error A L i J y Hy Fy) as Re.
      change (val (A i J)) with (a i J) in Re. change (fun j : nat => Rabs (val (L i j)) * Rabs (val (L J j))) with (fun j => Rabs (l i j) * Rabs (l J j)) in Re.
      change (fun j : nat => val (L i j) * val (L J j)) with (fun j => l i j * l J j) in Re.
      assert (Q : (grow (S J) - 1) * (Rabs (a i J) + rsum J (fun j => Rabs (l i j) * Rabs (l J j))) <= 2 * (N + 2) * uu * (2 * (d i * d J))) by (apply Rmult_le_compat; lra).
      eapply Rle_trans; [exact Re|]. unfold eta. assert (0 <= uu * (d i * d J)) by (apply Rmult_le_pos; lra). lra. }
    (* the pivot *)
    assert (PV : forall x, llt64_rest A L J J x -> finite x = true /\ 3 * eta * (d J * d J) <= val x <= 2 * (d J * d J)).
    { intros x Hx. destruct (FR J x ltac:(lia) Hx) as (Fx & Ex). split; [exact Fx|]. apply Rabs_le_inv in Ex. pose proof (SJ J ltac:(lia)) as S. destruct (D J ltac:(lia)) as [dJ AJ]. rewrite AJ in *.
      assert (P : 0 <= rsum J (fun m => l J m * l J m)) by (apply rsum_pos; intros; apply Rle_0_sqr). assert (0 < d J * d J) by (apply Rmult_lt_0_compat; lra).
      assert (eta * (d J * d J) <= / 1000 * (d J * d J)) by (apply Rmult_le_compat_r; lra). lra. }
    assert (JF : (S J <= f)%nat).
    { destruct (Nat.eq_dec f J) as [Ef|Nf]; [|lia]. exfalso. destruct (Hs ltac:(lia)) as ((x & Hx & Px) & _). rewrite Ef in Hx. destruct (PV x Hx) as (Fx & X1 & _).
      pose proof (Bleb_correct 53 1024 x fzero Fx eq_refl) as C. rewrite C in Px. destruct (Rle_bool_spec (val x) (val fzero)) as [Le|]; [|discriminate]. change (val fzero) with 0 in Le.
      destruct (D J ltac:(lia)) as [dJ _]. assert (0 < 3 * eta * (d J * d J)) by (repeat apply Rmult_lt_0_compat; lra). lra. }
    destruct (Hc J ltac:(lia)) as ((x & Hx & Px & Ex) & Ho). destruct (PV x Hx) as (Fx & X1 & X2).
    destruct (D J ltac:(lia)) as [dJ AJ]. assert (X0 : 0 < val x) by (assert (0 < 3 * eta * (d J * d J)) by (repeat apply Rmult_lt_0_compat; lra); lra).
    destruct (sqrt_error x Fx X0) as (FJ & RJ & SE). rewrite <- Ex in FJ, RJ, SE. assert (LJ : val (L J J) = l J J) by reflexivity. rewrite LJ in RJ, SE.
    pose proof (bpow_gt_0 radix2 (-538)) as B5. assert (L0 : 0 < l J J) by lra. set (lj := l J J) in *.
    assert (HU : (1 + uu) * (1 + uu) - 1 <= / 2) by (rewrite UV; lra).
    assert (SE2 : ((1 + uu) * (1 + uu) - 1) * val x <= / 2 * val x) by (apply Rmult_le_compat_r; lra). apply Rabs_le_inv in SE.
    assert (LJ2 : lj <= 2 * d J). { apply Rsqr_incr_0_var; [|lra]. unfold Rsqr. lra. }
    assert (LJ1 : bpow radix2 (-27) * d J <= lj).
    { apply Rsqr_incr_0_var; [|lra]. unfold Rsqr. replace (bpow radix2 (-27) * d J * (bpow radix2 (-27) * d J)) with (bpow radix2 (-27) * bpow radix2 (-27) * (d J * d J)) by ring. rewrite <- bpow_plus.
      assert (bpow radix2 (-27 + -27) <= eta). { apply Rle_trans with uu; [apply bpow_le; lia|]. unfold eta. assert (0 <= uu * N) by (apply Rmult_le_pos; lra). lra. }
      assert (bpow radix2 (-27 + -27) * (d J * d J) <= eta * (d J * d J)) by (apply Rmult_le_compat_r; [nra|assumption]). lra. }
    assert (EB : forall i lx, (J <= i < n)%nat -> 0 <= lx <= lj ->
      (grow (J + 3) - 1) * (Rabs (a i J) + rsum J (fun j => Rabs (l i j) * Rabs (l J j))) + tiny * grow (J + 3) * (INR (J + 1) + lx) <= eta * (d i * d J)).
    { intros i lx Hi Hx2. pose proof (MB i Hi) as M. destruct (DD i J ltac:(lia) ltac:(lia)) as [DD1 _]. pose proof (bpow_gt_0 radix2 (-900)) as B9.
      assert (M0 : 0 <= Rabs (a i J) + rsum J (fun j => Rabs (l i j) * Rabs (l J j))) by (apply Rplus_le_le_0_compat; [apply Rabs_pos|apply rsum_pos; intros; apply Rmult_le_pos; apply Rabs_pos]).
      assert (Q : (grow (J + 3) - 1) * (Rabs (a i J) + rsum J (fun j => Rabs (l i j) * Rabs (l J j))) <= 2 * (N + 2) * uu * (2 * (d i * d J))) by (apply Rmult_le_compat; lra).
      assert (K : INR (J + 1) <= N) by (apply le_INR; lia). pose proof (pos_INR (J + 1)) as K0.
      assert (Q2 : tiny * grow (J + 3) * (INR (J + 1) + lx) <= tiny * 2 * (N + 2 * d J)). { apply Rmult_le_compat; [apply Rmult_le_pos; lra|lra| |lra]. apply Rmult_le_compat_l; lra. }
      assert (Q3 : 4 * tiny * d J <= uu * d i * d J) by (apply Rmult_le_compat_r; [lra|apply TD; lia]).
      assert (Q4 : uu * bpow radix2 (-900) <= uu * (d i * d J)) by (apply Rmult_le_compat_l; lra).
      assert (Q5 : 0 <= uu * (d i * d J)) by (apply Rmult_le_pos; lra). unfold eta. lra. }
    split; [exact JF|]. split.
    { intros j Hj. destruct (Nat.eq_dec j J) as [->|]; [exact L0|apply Lp; lia]. }
    intros p q Hq Hp. destruct (Nat.eq_dec q J) as [->|]; [|apply Er; lia].
    destruct (Nat.eq_dec p J) as [->|Np].
    - split; [exact FJ|]. pose proof (diag_error A L J x Hx Fx Px Ex) as De. rewrite <- (Rplus_0_r (INR (J + 1))) in De. eapply Rle_trans; [exact De|]. apply (EB J 0); [lia|lra].
    - destruct (Ho p ltac:(lia)) as (y & Hy & Qy). destruct (FR p y ltac:(lia) Hy) as (Fy & Ey).
      assert (Fq : finite (L p J) = true).
      { apply (quotient_error y (L J J) (L p J) Fy FJ RJ Qy). rewrite LJ. unfold Rdiv. rewrite Rabs_mult, Rabs_inv, (Rabs_pos_eq lj) by lra.
        assert (Y : Rabs (val y) <= 3 * (d p * d J)).
        { pose proof (Rabs_step (val y) (a p J - rsum J (fun j => l p j * l J j)) 0) as S. rewrite !Rminus_0_r in S.
          assert (S2 : Rabs (a p J - rsum J (fun j => l p j * l J j)) <= 2 * (d p * d J)).
          { unfold Rminus. eapply Rle_trans; [apply Rabs_triang|]. rewrite Rabs_Ropp. pose proof (rsum_abs2 J (l p) (l J)). pose proof (Aij p J ltac:(lia) ltac:(lia)). pose proof (CS p ltac:(lia)). lra. }
          assert (eta * (d p * d J) <= / 1000 * (d p * d J)) by (apply Rmult_le_compat_r; [destruct (DD p J ltac:(lia) ltac:(lia)); pose proof (bpow_gt_0 radix2 (-900)); lra|lra]).
          destruct (DD p J ltac:(lia) ltac:(lia)); pose proof (bpow_gt_0 radix2 (-900)). lra. }
        apply (Rmult_le_reg_r lj); [lra|]. rewrite Rmult_assoc, Rinv_l, Rmult_1_r by lra.
        apply Rle_trans with (bpow radix2 990 * (bpow radix2 (-27) * d J)); [|apply Rmult_le_compat_l; [apply bpow_ge_0|exact LJ1]].
        rewrite <- Rmult_assoc, <- bpow_plus. eapply Rle_trans; [exact Y|]. rewrite <- Rmult_assoc. apply Rmult_le_compat_r; [lra|].
        apply Rle_trans with (bpow radix2 2 * bpow radix2 450); [change (bpow radix2 2) with 4; destruct (D9 p ltac:(lia)); pose proof (bpow_gt_0 radix2 450); lra|]. rewrite <- bpow_plus. apply bpow_le. lia. }
      split; [exact Fq|]. eapply Rle_trans; [apply (off_error A L p J y Hy Fy FJ RJ Qy Fq)|]. apply (EB p lj); [lia|lra]. }
  destruct (INV n ltac:(lia)) as (Fn & Lp & Er). assert (Ef : f = n) by lia. subst f.
  split; [exact Hc|]. split; [intros i j Hij; apply Er; lia|]. intros i k Hk. apply (Er i k); lia.
Qed.

Lemma square_sym n L i k : square_of n L i k = square_of n L k i.
Proof. unfold square_of. apply rsum_ext. intros; ring. Qed.
Lemma square_low n A L i k : llt64 n A L -> (k <= i < n)%nat -> square_of n L i k = rsum (S k) (fun j => val (L i j) * val (L k j)).
Proof. intros (Z & _) H. unfold square_of. apply rsum_cut; [lia|]. intros j Hj. rewrite (Z k j) by lia. change (val fzero) with 0. ring. Qed.

(** if the eigenvalues of the correlation matrix are at least 4 (n+5)^2 2^-53, the factorization succeeds whatever the order of
    evaluation, and the spread of the sigma points is the covariance up to 4 (n+5) 2^-53 *)
Theorem C114_success_partial n c P L : (Z.of_nat n < 65536)%Z -> finite c = true -> bpow radix2 (-40) <= val c <= bpow radix2 40 ->
  symmetric64 n P -> (forall i, (i < n)%nat -> bpow radix2 (-800) <= val (P i i) <= bpow radix2 800) ->
  correlation_above n (4 * (INR n + 5) * (INR n + 5) * bpow radix2 (-53)) P -> ukf64_offsets n c P L ->
  llt64_succeeds n (fun i j => fmul64 c (P i j)) L /\ (forall i j, (j <= i < n)%nat -> finite (L i j) = true) /\
  forall i k, (i < n)%nat -> (k < n)%nat -> Rabs (square_of n L i k / val c - val (P i k)) <= 4 * (INR n + 5) * bpow radix2 (-53) * (sqrt (val (P i i)) * sqrt (val (P k k))).
Proof.
  intros Hn Fc [C1 C2] SP RP PD HL. fold uu in *. unfold ukf64_offsets in HL. set (A := fun i j => fmul64 c (P i j)) in *. set (C := val c) in *.
  set (N := INR n) in *. assert (N0 : 0 <= N) by apply pos_INR. assert (N1 : N <= 65535) by (unfold N; rewrite INR_IZR_INZ; apply IZR_le; lia).
  pose proof uu_pos as U. pose proof uu_val as UV. pose proof tiny_pos as T. assert (C0 : 0 < C) by (pose proof (bpow_gt_0 radix2 (-40)); lra).
  set (d := fun i => sqrt (val (P i i))) in *. set (a := vals P).
  assert (D : forall p, (p < n)%nat -> 0 < d p /\ a p p = d p * d p).
  { intros p Hp. destruct (RP p Hp) as [R1 _]. assert (0 < val (P p p)) by (pose proof (bpow_gt_0 radix2 (-800)); lra). unfold d, a, vals. split; [apply sqrt_lt_R0; exact H|rewrite sqrt_sqrt; lra]. }
  assert (D9 : forall p, (p < n)%nat -> bpow radix2 (-400) <= d p <= bpow radix2 400).
  { intros p Hp. destruct (RP p Hp) as [R1 R2]. unfold d. split.
    - replace (bpow radix2 (-400)) with (sqrt (bpow radix2 (-400) * bpow radix2 (-400))) by (apply sqrt_square, bpow_ge_0). rewrite <- bpow_plus. apply sqrt_le_1_alt. exact R1.
    - replace (bpow radix2 400) with (sqrt (bpow radix2 400 * bpow radix2 400)) by (apply sqrt_square, bpow_ge_0). rewrite <- bpow_plus. apply sqrt_le_1_alt. exact R2. }
  assert (DD : forall p q, (p < n)%nat -> (q < n)%nat -> bpow radix2 (-800) <= d p * d q <= bpow radix2 800).
  { intros p q Hp Hq. change (-800)%Z with (-400 + -400)%Z. change 800%Z with (400 + 400)%Z. rewrite !bpow_plus. destruct (D9 p Hp), (D9 q Hq). split; apply Rmult_le_compat; try assumption; try apply bpow_ge_0; pose proof (bpow_ge_0 radix2 (-400)); lra. }
  set (delta := 4 * (N + 5) * (N + 5) * uu) in *. assert (De0 : 0 <= delta) by (unfold delta; repeat apply Rmult_le_pos; lra).
  assert (Sy : forall p q, (p < n)%nat -> (q < n)%nat -> a p q = a q p) by (intros p q Hp Hq; apply (SP p q Hp Hq)).
  assert (Aij : forall p q, (p < n)%nat -> (q < n)%nat -> Rabs (a p q) <= d p * d q) by (intros p q Hp Hq; apply (entry_bound n a d delta p q Sy D De0 PD Hp Hq)).
  assert (TD : forall p q, (p < n)%nat -> (q < n)%nat -> tiny <= uu * (C * (d p * d q))).
  { intros p q Hp Hq. destruct (DD p q Hp Hq) as [D1 _]. apply Rle_trans with (uu * (bpow radix2 (-40) * bpow radix2 (-800))).
    - unfold tiny, uu. rewrite <- !bpow_plus. apply bpow_le. lia.
    - apply Rmult_le_compat_l; [lra|]. apply Rmult_le_compat; try apply bpow_ge_0; assumption. }
  assert (HA : forall p q, (p < n)%nat -> (q < n)%nat -> finite (A p q) = true /\ Rabs (val (A p q) - C * a p q) <= 2 * uu * (C * (d p * d q))).
  { intros p q Hp Hq. pose proof (Aij p q Hp Hq) as Ab. destruct (DD p q Hp Hq) as [D1 D2]. assert (Ca : Rabs (C * a p q) <= C * (d p * d q)) by (rewrite Rabs_mult, (Rabs_pos_eq C) by lra; apply Rmult_le_compat_l; lra).
    destruct (mul_ok c (P p q) Fc (proj1 (SP p q Hp Hq))) as [F V].
    { change (val c * val (P p q)) with (C * a p q). eapply Rle_trans; [exact Ca|]. apply Rle_trans with (bpow radix2 40 * bpow radix2 800); [apply Rmult_le_compat; try assumption; pose proof (bpow_ge_0 radix2 (-800)); lra|]. rewrite <- bpow_plus. apply bpow_le. lia. }
    split; [exact F|]. unfold A. rewrite V. change (val c * val (P p q)) with (C * a p q). eapply Rle_trans; [apply rnd_err|]. pose proof (TD p q Hp Hq). assert (uu * Rabs (C * a p q) <= uu * (C * (d p * d q))) by (apply Rmult_le_compat_l; lra). lra. }
  assert (U2 : uu <= / 1000000) by (rewrite UV; lra).
  assert (SqA : forall p, (p < n)%nat -> C * (d p * d p) * (1 - 2 * uu) <= val (A p p) <= C * (d p * d p) * (1 + 2 * uu)).
  { intros p Hp. destruct (HA p p Hp Hp) as [_ E]. destruct (D p Hp) as [_ Ap]. rewrite Ap in E. apply Rabs_le_inv in E. split; lra. }
  assert (CA : cond n (4 * (INR n + 4) * (INR n + 4) * bpow radix2 (-53)) A).
  { split; [|split].
    - intros p q Hp Hq. split; [apply HA; assumption|]. unfold A. destruct (mul_inv _ _ (proj1 (HA p q Hp Hq))) as (_ & _ & ->). destruct (mul_inv _ _ (proj1 (HA q p Hq Hp))) as (_ & _ & ->). rewrite (proj2 (SP p q Hp Hq)). reflexivity.
    - intros p Hp. destruct (SqA p Hp) as [S1 S2]. destruct (DD p p Hp Hp) as [D1 D2]. pose proof (bpow_gt_0 radix2 (-800)) as B8.
      assert (Q1 : bpow radix2 (-40) * bpow radix2 (-800) <= C * (d p * d p)) by (apply Rmult_le_compat; try apply bpow_ge_0; assumption).
      assert (Q2 : C * (d p * d p) <= bpow radix2 40 * bpow radix2 800) by (apply Rmult_le_compat; lra). rewrite <- bpow_plus in Q1, Q2. pose proof (bpow_gt_0 radix2 (-40 + -800)) as B9.
      set (w := C * (d p * d p)) in *. split.
      + apply Rle_trans with (bpow radix2 (-40 + -800) * bpow radix2 (-1)); [rewrite <- bpow_plus; apply bpow_le; lia|]. change (bpow radix2 (-1)) with (/ 2). apply Rle_trans with (w * / 2); [lra|]. assert (w * / 2 <= w * (1 - 2 * uu)) by (apply Rmult_le_compat_l; lra). lra.
      + apply Rle_trans with (bpow radix2 (40 + 800) * bpow radix2 1); [|rewrite <- bpow_plus; apply bpow_le; lia]. change (bpow radix2 1) with 2. assert (w * (1 + 2 * uu) <= w * 2) by (apply Rmult_le_compat_l; lra). lra.
    - intros v. fold N. fold uu. set (S := rsum n (fun i => val (P i i) * (v i * v i))). specialize (PD v). fold S in PD.
      assert (S0 : 0 <= S) by (apply rsum_pos; intros i Hi; destruct (D i Hi) as [di Ai]; change (val (P i i)) with (a i i); rewrite Ai; apply Rmult_le_pos; [apply Rle_0_sqr|apply Rle_0_sqr]).
      assert (Q1 : rsum n (fun i => val (A i i) * (v i * v i)) <= C * (1 + 2 * uu) * S).
      { unfold S. rewrite <- rsum_scal. apply rsum_le. intros i Hi. destruct (SqA i Hi) as [_ S2]. destruct (D i Hi) as [_ Ai]. rewrite <- Ai in S2. change (val (P i i)) with (a i i).
        replace (C * (1 + 2 * uu) * (a i i * (v i * v i))) with (C * a i i * (1 + 2 * uu) * (v i * v i)) by ring. apply Rmult_le_compat_r; [apply Rle_0_sqr|exact S2]. }
      assert (Q2 : C * rsum n (fun i => rsum n (fun j => v i * v j * val (P i j))) - 2 * uu * C * (N * S) <= rsum n (fun i => rsum n (fun j => v i * v j * val (A i j)))).
      { apply Rle_trans with (C * rsum n (fun i => rsum n (fun j => v i * v j * val (P i j))) - 2 * uu * C * (rsum n (fun i => d i * Rabs (v i)) * rsum n (fun i => d i * Rabs (v i)))).
        - apply Rplus_le_compat_l, Ropp_le_contravar. apply Rmult_le_compat_l; [repeat apply Rmult_le_pos; lra|]. eapply Rle_trans; [apply rsum_sq|]. apply Req_le. unfold N, S. f_equal. apply rsum_ext. intros p Hp. destruct (D p Hp) as [_ Ap]. change (val (P p p)) with (a p p). rewrite Ap.
          replace (d p * Rabs (v p) * (d p * Rabs (v p))) with (d p * d p * (Rabs (v p) * Rabs (v p))) by ring. rewrite <- Rabs_mult, Rabs_pos_eq; [reflexivity|]. apply Rle_0_sqr.
        - rewrite rsum_prod, <- !rsum_scal, <- rsum_minus. apply rsum_le. intros i Hi. rewrite <- !rsum_scal, <- rsum_minus. apply rsum_le. intros j Hj. destruct (HA i j Hi Hj) as [_ E]. unfold a, vals in E.
          pose proof (Rle_abs (v i * v j * (C * val (P i j) - val (A i j)))) as Q. rewrite !Rabs_mult, (Rabs_minus_sym (C * _)) in Q.
          assert (Q3 : Rabs (v i) * Rabs (v j) * Rabs (val (A i j) - C * val (P i j)) <= Rabs (v i) * Rabs (v j) * (2 * uu * (C * (d i * d j)))) by (apply Rmult_le_compat_l; [apply Rmult_le_pos; apply Rabs_pos|exact E]). lra. }
      eapply Rle_trans; [|exact Q2]. set (Dn := 4 * (N + 4) * (N + 4) * uu). assert (D0 : 0 <= Dn <= 1).
      { unfold Dn. split; [repeat apply Rmult_le_pos; lra|]. assert ((N + 4) * (N + 4) <= 65539 * 65539) by (apply Rmult_le_compat; lra). rewrite UV. lra. }
      eapply Rle_trans; [apply Rmult_le_compat_l; [lra|exact Q1]|]. apply (Rmult_le_compat_l C) in PD; [|lra].
      assert (CS : 0 <= C * S) by (apply Rmult_le_pos; lra).
      assert (K : Dn * (1 + 2 * uu) <= delta - 2 * uu * N). { unfold delta. assert (Dn * (2 * uu) <= 1 * (2 * uu)) by (apply Rmult_le_compat_r; lra). assert (0 <= uu * N) by (apply Rmult_le_pos; lra). unfold Dn in *. lra. }
      apply (Rmult_le_compat_r (C * S)) in K; [|exact CS]. lra. }
  destruct (llt_success n A L Hn HL CA) as (Su & Fi & Er). split; [exact Su|]. split; [exact Fi|].
  assert (Low : forall i k, (k <= i < n)%nat -> Rabs (square_of n L i k / C - val (P i k)) <= 4 * (N + 5) * uu * (d i * d k)).
  { intros i k Hk. specialize (Er i k Hk). rewrite (square_low n A L i k HL Hk). fold N uu in Er. set (s := rsum (S k) (fun j => val (L i j) * val (L k j))) in *. destruct (HA i k ltac:(lia) ltac:(lia)) as [_ E]. fold (vals P i k). fold a.
    assert (SA : forall p, (p < n)%nat -> sqrt (val (A p p)) <= sqrt C * d p * (1 + 2 * uu)).
    { intros p Hp. destruct (SqA p Hp) as [_ S2]. destruct (D p Hp) as [dp _]. rewrite <- (sqrt_square (sqrt C * d p * (1 + 2 * uu))) by (repeat apply Rmult_le_pos; try lra; apply sqrt_pos). apply sqrt_le_1_alt. eapply Rle_trans; [exact S2|].
      replace (sqrt C * d p * (1 + 2 * uu) * (sqrt C * d p * (1 + 2 * uu))) with (sqrt C * sqrt C * (d p * d p) * ((1 + 2 * uu) * (1 + 2 * uu))) by ring. rewrite sqrt_sqrt by lra. apply Rmult_le_compat_l; [repeat apply Rmult_le_pos; lra|]. nra. }
    destruct (D i ltac:(lia)) as [di _], (D k ltac:(lia)) as [dk _]. pose proof (SA i ltac:(lia)) as Si. pose proof (SA k ltac:(lia)) as Sk.
    assert (SS : sqrt (val (A i i)) * sqrt (val (A k k)) <= C * (d i * d k) * ((1 + 2 * uu) * (1 + 2 * uu))).
    { eapply Rle_trans; [apply Rmult_le_compat; [apply sqrt_pos|apply sqrt_pos|exact Si|exact Sk]|]. apply Req_le. replace (sqrt C * d i * (1 + 2 * uu) * (sqrt C * d k * (1 + 2 * uu))) with (sqrt C * sqrt C * (d i * d k) * ((1 + 2 * uu) * (1 + 2 * uu))) by ring. rewrite sqrt_sqrt by lra. reflexivity. }
    set (w := C * (d i * d k)) in *. assert (W : 0 < w) by (unfold w; repeat apply Rmult_lt_0_compat; lra).
    assert (B : Rabs (s - C * a i k) <= 4 * (N + 5) * uu * w).
    { pose proof (Rabs_step s (val (A i k)) (C * a i k)) as St. rewrite (Rabs_minus_sym s (val (A i k))) in St.
      assert (E4 : 0 <= 4 * (N + 4) * uu) by (repeat apply Rmult_le_pos; lra). apply (Rmult_le_compat_l (4 * (N + 4) * uu)) in SS; [|exact E4].
      assert (E5 : 4 * (N + 4) * uu <= / 1000) by (rewrite UV; lra).
      assert (E6 : 4 * (N + 4) * uu * (w * (4 * uu + 4 * uu * uu)) <= / 1000 * (w * (8 * uu))). { apply Rmult_le_compat; [exact E4|repeat apply Rmult_le_pos; nra|exact E5|apply Rmult_le_compat_l; [lra|nra]]. }
      assert (0 <= uu * w) by (apply Rmult_le_pos; lra). lra. }
    replace (s / C - a i k) with ((s - C * a i k) * / C) by (field; lra). rewrite Rabs_mult, (Rabs_pos_eq (/ C)) by (left; apply Rinv_0_lt_compat; lra).
    apply (Rmult_le_compat_r (/ C)) in B; [|left; apply Rinv_0_lt_compat; lra]. eapply Rle_trans; [exact B|]. apply Req_le. unfold w. field. lra. }
  intros i k Hi Hk. destruct (le_lt_dec k i) as [Le|Lt]; [apply Low; lia|]. rewrite square_sym, (proj2 (SP i k Hi Hk)), (Rmult_comm (sqrt _)). apply Low. lia.
Qed.
(** with the default parameters *)
Theorem C114_default_partial n a2 lambda P L : (1 <= Z.of_nat n < 65536)%Z -> millionth a2 -> ukf64_lambda n a2 fzero lambda ->
  symmetric64 n P -> (forall i, (i < n)%nat -> bpow radix2 (-800) <= val (P i i) <= bpow radix2 800) ->
  correlation_above n (4 * (INR n + 5) * (INR n + 5) * bpow radix2 (-53)) P -> ukf64_offsets n (fadd64 (f_of_nat n) lambda) P L ->
  forall i k, (i < n)%nat -> (k < n)%nat -> Rabs (square_of n L i k / val (fadd64 (f_of_nat n) lambda) - val (P i k)) <= 4 * (INR n + 5) * bpow radix2 (-53) * (sqrt (val (P i i)) * sqrt (val (P k k))).
Proof.
  intros Hn Ha HL SP RP PD HO. destruct (lambda_ok n a2 lambda Hn Ha HL) as (Fl & L1 & L2). destruct (f_of_nat_ok n ltac:(lia)) as [Fn Vn]. destruct (count_ok n Hn) as (_ & _ & N1). pose proof big_large as BL.
  assert (C : finite (fadd64 (f_of_nat n) lambda) = true /\ bpow radix2 (-40) <= val (fadd64 (f_of_nat n) lambda) <= bpow radix2 40).
  { destruct (add_ok (f_of_nat n) lambda Fn Fl) as [F V]; [rewrite Vn; apply Rabs_le; lra|]. split; [exact F|]. rewrite V, Vn. split; [apply rnd_ge_fmt|apply rnd_le_fmt]; try (apply generic_format_bpow; vm_compute; discriminate).
    - apply Rle_trans with (/ 2000000); [|lra]. change (bpow radix2 (-40)) with (/ IZR (2 ^ 40)). apply Rinv_le_contravar; [lra|apply IZR_le; vm_compute; discriminate].
    - apply Rle_trans with 2; [lra|]. change (bpow radix2 40) with (IZR (2 ^ 40)). apply IZR_le. vm_compute. discriminate. }
  destruct C as [Fc Rc]. apply (C114_success_partial n (fadd64 (f_of_nat n) lambda) P L); auto. lia.
Qed.

(** ** A positive definite covariance whose factorization fails: the last entry of L is that of the covariance, not of a
    square root *)
Definition lower2 (a c d : f64) : fmat := fun i j => match i, j with 0, 0 => a | 1, 0 => c | 1, 1 => d | _, _ => fzero end%nat.
Definition r_c : f64 := fadd64 (f_of_nat 2) w_lambda.
Definition r_P : fmat := mat2 (fz 4007345515705266) (fz 3451244358460717) (fz 3451244358460717) (fz 2972313611373402).
Definition r_A : fmat := fun i j => fmul64 r_c (r_P i j).
Definition r_l00 : f64 := fsqrt64 (r_A 0%nat 0%nat).
Definition r_l10 : f64 := fdiv64 (r_A 1%nat 0%nat) r_l00.
Definition r_x : f64 := fadd64 (r_A 1%nat 1%nat) (fmul64 (fopp64 r_l10) r_l10).
Definition r_L : fmat := lower2 r_l00 r_l10 (r_A 1%nat 1%nat).
Lemma lower2_zero a c d i j : (i < j)%nat -> lower2 a c d i j = fzero.
Proof. destruct i as [|[|i]], j as [|[|j]]; intros H; try lia; reflexivity. Qed.
Lemma column0 (A L : fmat) : Bleb (A 0%nat 0%nat) fzero = false -> L 0%nat 0%nat = fsqrt64 (A 0%nat 0%nat) -> L 1%nat 0%nat = fdiv64 (A 1%nat 0%nat) (L 0%nat 0%nat) -> llt64_column 2 A L 0.
Proof.
  intros P E1 E2. split.
  - exists (A 0%nat 0%nat). split; [apply sum_one|]. split; assumption.
  - intros i Hi. replace i with 1%nat by lia. exists (A 1%nat 0%nat). split; [apply sum_one|left; exact E2].
Qed.
Lemma rest1 (A L : fmat) : llt64_rest A L 1 1 (fadd64 (A 1%nat 1%nat) (fmul64 (fopp64 (L 1%nat 0%nat)) (L 1%nat 0%nat))).
Proof. apply (sum_add [_] [_]); [apply sum_one|apply sum_prod]. Qed.
Lemma r_fails : ukf64_offsets 2 r_c r_P r_L.
Proof.
  unfold ukf64_offsets. change (fun i j => fmul64 r_c (r_P i j)) with r_A. split; [intros i j; apply lower2_zero|]. exists 1%nat. split; [lia|]. split.
  - intros k Hk. replace k with 0%nat by lia. apply column0; [vm_compute; reflexivity|reflexivity|reflexivity].
  - intros _. split.
    + exists r_x. split; [exact (rest1 r_A r_L)|vm_compute; reflexivity].
    + intros k i Hk Hi. replace k with 1%nat by lia. replace i with 1%nat by lia. reflexivity.
Qed.
Lemma r_posdef : symmetric64 2 r_P /\ positive_definite64 2 r_P.
Proof.
  split.
  - intros [|[|i]] [|[|j]] Hi Hj; try lia; (split; [vm_compute; reflexivity|reflexivity]).
  - intros v (i & Hi & Vi). cbn [rsum r_P mat2]. rewrite !fz_val by (vm_compute; discriminate).
    set (y := v 0%nat) in *. set (z := v 1%nat) in *.
    assert (Q : 4007345515705266 * (0 + (0 + y * y * 4007345515705266 + y * z * 3451244358460717) + (0 + z * y * 3451244358460717 + z * z * 2972313611373402))
       = Rsqr (4007345515705266 * y + 3451244358460717 * z) + (4007345515705266 * 2972313611373402 - 3451244358460717 * 3451244358460717) * Rsqr z) by (unfold Rsqr; ring).
    assert (P : 0 < Rsqr (4007345515705266 * y + 3451244358460717 * z) + (4007345515705266 * 2972313611373402 - 3451244358460717 * 3451244358460717) * Rsqr z).
    { pose proof (Rle_0_sqr (4007345515705266 * y + 3451244358460717 * z)) as Q1. pose proof (Rle_0_sqr z) as Q2.
      destruct (Req_dec z 0) as [E|E].
      - rewrite E, Rsqr_0, !Rmult_0_r, !Rplus_0_r. apply Rsqr_pos_lt. assert (i = 0)%nat as -> by (destruct i as [|[|i]]; [reflexivity|contradict Vi; exact E|lia]). fold y in Vi. apply Rmult_integral_contrapositive_currified; [lra|exact Vi].
      - pose proof (Rsqr_pos_lt z E) as Q3. lra. }
    rewrite <- Q in P. lra.
Qed.
Theorem C114_refuted : ~ C114_claim.
Proof.
  intros H. destruct r_posdef as [Sy Pd].
  specialize (H 2%nat r_P r_L r_c w_a2 w_lambda ltac:(lia) w_a2_ok (or_introl eq_refl) eq_refl Sy Pd r_fails 1%nat 1%nat ltac:(lia) ltac:(lia)).
  destruct (lambda_ok 2 w_a2 w_lambda ltac:(lia) w_a2_ok (or_introl eq_refl)) as (Fl & L1 & L2). change (INR 2) with 2 in *.
  destruct (f_of_nat_ok 2 ltac:(lia)) as [Fn Vn]. change (INR 2) with 2 in Vn. pose proof big_large as BL.
  assert (Vp : val (r_P 1%nat 1%nat) = 2972313611373402) by (cbn [r_P mat2]; apply fz_val; vm_compute; discriminate).
  assert (Vc : val r_c = rnd64 (2 + val w_lambda)). { unfold r_c. destruct (add_ok (f_of_nat 2) w_lambda Fn Fl) as [F V]; [rewrite Vn; apply Rabs_le; lra|]. rewrite V, Vn. reflexivity. }
  assert (Rc : / 1000000 <= val r_c <= 1).
  { pose proof (rnd_err (2 + val w_lambda)) as E. rewrite <- Vc in E. rewrite (Rabs_pos_eq (2 + val w_lambda)) in E by lra. apply Rabs_le_inv in E. pose proof tiny_small. pose proof uu_val as UV.
    assert (uu * (2 + val w_lambda) <= uu * 1) by (apply Rmult_le_compat_l; [pose proof uu_pos; lra|lra]). rewrite UV in *. split; lra. }
  assert (Fa : finite (r_A 1%nat 1%nat) = true) by (vm_compute; reflexivity). destruct (mul_inv _ _ Fa) as (_ & _ & Va). rewrite Vp in Va.
  pose proof (rnd_err (val r_c * 2972313611373402)) as E. rewrite <- Va in E. rewrite (Rabs_pos_eq (val r_c * 2972313611373402)) in E by (apply Rmult_le_pos; lra).
  rewrite sqrt_sqrt in H by (rewrite Vp; lra). rewrite Vp in H. unfold square_of in H. cbn [rsum r_L lower2] in H. fold (r_A 1%nat 1%nat) in E.
  change (fmul64 r_c (r_P 1%nat 1%nat)) with (r_A 1%nat 1%nat) in E. set (t := val (r_A 1%nat 1%nat)) in *. set (q := val r_l10) in *. set (c := val r_c) in *. clearbody t q c.
  pose proof (Rle_0_sqr q) as Q0. unfold Rsqr in Q0. apply Rabs_le_inv in E. apply Rabs_le_inv in H. destruct H as [_ H]. pose proof tiny_small. pose proof tiny_pos. pose proof uu_val as UV. pose proof uu_pos.
  assert (T1 : / 2 * (c * 2972313611373402) <= t). { assert (uu * (c * 2972313611373402) <= / 4 * (c * 2972313611373402)) by (apply Rmult_le_compat_r; [apply Rmult_le_pos; lra|rewrite UV; lra]). lra. }
  assert (T2 : 1000000 <= t) by lra.
  assert (T3 : 1000000 * (/ 2 * (c * 2972313611373402)) <= t * t) by (apply Rmult_le_compat; lra).
  assert (B : 10 * 2972313611373402 <= (0 + q * q + t * t) / c). { apply (Rmult_le_reg_r c); [lra|]. replace ((0 + q * q + t * t) / c * c) with (0 + q * q + t * t) by (field; lra). lra. }
  lra.
Qed.

(** the hypotheses are met: P = [2 1; 1 2] *)
Definition s_P : fmat := mat2 (fz 2) (fz 1) (fz 1) (fz 2).
Definition s_A : fmat := fun i j => fmul64 r_c (s_P i j).
Definition s_l00 : f64 := fsqrt64 (s_A 0%nat 0%nat).
Definition s_l10 : f64 := fdiv64 (s_A 1%nat 0%nat) s_l00.
Definition s_L : fmat := lower2 s_l00 s_l10 (fsqrt64 (fadd64 (s_A 1%nat 1%nat) (fmul64 (fopp64 s_l10) s_l10))).
Example C114_nonvacuous : (1 <= Z.of_nat 2 < 65536)%Z /\ millionth w_a2 /\ ukf64_lambda 2 w_a2 fzero w_lambda /\ r_c = fadd64 (f_of_nat 2) w_lambda /\ symmetric64 2 s_P /\
  (forall i, (i < 2)%nat -> bpow radix2 (-800) <= val (s_P i i) <= bpow radix2 800) /\ correlation_above 2 (4 * (INR 2 + 5) * (INR 2 + 5) * bpow radix2 (-53)) s_P /\
  ukf64_offsets 2 r_c s_P s_L /\ llt64_succeeds 2 s_A s_L /\ forall i j, (j <= i < 2)%nat -> finite (s_L i j) = true.
Proof.
  assert (Su : llt64_succeeds 2 s_A s_L).
  { intros [|[|k]] Hk; try lia.
    - apply column0; [vm_compute; reflexivity|reflexivity|reflexivity].
    - split; [|intros i Hi; lia]. eexists. split; [apply rest1|]. split; [vm_compute; reflexivity|reflexivity]. }
  split; [lia|]. split; [exact w_a2_ok|]. split; [left; reflexivity|]. split; [reflexivity|]. split; [|split; [|split; [|split; [|split]]]].
  - intros [|[|i]] [|[|j]] Hi Hj; try lia; (split; [vm_compute; reflexivity|reflexivity]).
  - assert (V : val (fz 2) = 2) by (apply fz_val; vm_compute; discriminate).
    assert (B : bpow radix2 (-800) <= 2 <= bpow radix2 800) by (split; change 2 with (bpow radix2 1); apply bpow_le; lia).
    intros [|[|i]] Hi; try lia; cbn [s_P mat2]; rewrite V; exact B.
  - intros v. cbn [rsum s_P mat2]. rewrite !fz_val by (vm_compute; discriminate). fold uu. rewrite uu_val. change (INR 2) with 2. set (y := v 0%nat). set (z := v 1%nat).
    pose proof (Rle_0_sqr (y + z)) as Q. pose proof (Rle_0_sqr y) as Q1. pose proof (Rle_0_sqr z) as Q2. unfold Rsqr in *. lra.
  - split; [intros i j; apply lower2_zero|]. exists 2%nat. split; [lia|]. split; [exact Su|lia].
  - exact Su.
  - intros [|[|i]] [|[|j]] H; try lia; vm_compute; reflexivity.
Qed.
