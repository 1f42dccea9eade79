(** C115: a correction of the unscented filter in double arithmetic. *)
From Coq Require Import ZArith Reals Lra Lia Bool List.
From Flocq Require Import Core IEEE754.BinarySingleNaN.
From Verif Require Import Outcome FB_Model FloatTime AngleFloat KF_Float MatFloat Props_MatFloat Props_MatFloatC UKFFloat Props_UKFFloat LltFloat Props_Llt UKFFloatC.
Import ListNotations.
Open Scope R_scope.

(** ** Specification, on real numbers *)
(** sum of w_i u_i v_i, and the size of its terms *)
Definition spread (q : nat) (w u v : nat -> R) : R := rsum q (fun i => w i * u i * v i).
Definition off (Z : fmat) (zp : fvec) (a : nat) : nat -> R := fun i => val (Z a i) - val (zp a).
Definition absf (f : nat -> R) : nat -> R := fun i => Rabs (f i).
Definition valv (w : fvec) : nat -> R := fun i => val (w i).
(** rounding of a number r plus a spread *)
Definition rounding_spread (q : nat) (w u v : nat -> R) (r : R) : R :=
  ((1 + bpow radix2 (-53)) ^ (q + 4) - 1) * (Rabs r + spread q (absf w) (absf u) (absf v))
  + bpow radix2 (-1075) * (1 + bpow radix2 (-53)) ^ (q + 4) * (INR (q + 1) + (Rabs r + rsum q (absf v))).
(** P - K S K' *)
Definition exact_ukf_corr (k : nat) (P K S : rmat) (i j : nat) : R := P i j - sandwich k K S i j.
Definition rounding_ukf_corr (k : nat) (P K S : fmat) (i j : nat) : R :=
  ((1 + bpow radix2 (-53)) ^ (2 * (k + 1)) - 1) * (mags P i j + sandwich k (mags K) (mags S) i j)
  + bpow radix2 (-1075) * (1 + bpow radix2 (-53)) ^ (2 * (k + 1)) * INR (k + 1) * (1 + (mags P i j + rsum k (mags K j))).
(** what a user would want: after a correction with one measurement (so that inverse() is a division), default parameters, the
    variances are not negative *)
Definition inverts1 (S inv : fmat) : Prop := inv 0%nat 0%nat = fdiv64 fone (S 0%nat 0%nat).
Definition C115_claim : Prop := forall n a2 lambda h x z cov Q x' cov', (1 <= n)%nat -> millionth a2 -> cov_mat n (vals cov) -> 0 < val (Q 0%nat 0%nat) ->
  ukf64_correct n 1 a2 lambda (fz 2) h inverts1 x z cov Q x' cov' -> finite_mat n n cov' -> forall i, (i < n)%nat -> 0 <= val (cov' i i).

(** ** Innovation and cross covariance *)
Lemma spread_error q (w da db : fvec) (DA DB : nat -> R) r s :
  sums ((fone, r) :: pairs q (fun i => fmul64 (w i) (da i)) db) s -> finite s = true ->
  (forall i, (i < q)%nat -> (finite (da i) = true -> Rabs (val (da i) - DA i) <= uu * Rabs (DA i)) /\ (finite (db i) = true -> Rabs (val (db i) - DB i) <= uu * Rabs (DB i))) ->
  Rabs (val s - (val r + spread q (valv w) DA DB)) <= rounding_spread q (valv w) DA DB (val r).
Proof.
  intros H F DX0. set (t0 := ([(fone, fone)], fone, r) : item). set (t1 := fun k => ([(w k, da k)], fmul64 (w k) (da k), db k) : item).
  set (L := t0 :: items q t1). assert (EL : (fone, r) :: pairs q (fun i => fmul64 (w i) (da i)) db = outer L) by (unfold L, outer, items, pairs; cbn [map]; rewrite map_map; reflexivity).
  assert (HL : Forall (inner_ok 1) L).
  { unfold L. constructor; [split; [apply sum_one|reflexivity]|]. unfold items. rewrite Forall_map, Forall_forall. intros k _. split; [apply sum_prod|reflexivity]. }
  assert (DX : forall i, (i < q)%nat -> Rabs (val (da i) - DA i) <= uu * Rabs (DA i) /\ Rabs (val (db i) - DB i) <= uu * Rabs (DB i)).
  { intros i Hi. destruct (sums_error _ _ H F) as (AF & _). inversion AF as [|? ? _ AF2]; subst. unfold all_finite in AF2. rewrite Forall_forall in AF2.
    destruct (AF2 (fmul64 (w i) (da i), db i)) as [A1 A2]. { unfold pairs. apply in_map_iff. exists i. split; [reflexivity|]. apply in_seq. lia. }
    cbn [fst snd] in A1, A2. apply mul_inv in A1. destruct (DX0 i Hi) as [B1 B2]. split; [apply B1, A1|apply B2, A2]. }
  rewrite EL in H. pose proof (sums_error2 _ _ _ HL H F) as B. unfold L in B. cbn [length ex2 mag2 abs2] in B. rewrite items_length in B.
  destruct (items_ex2 q t1) as (a1 & b1 & c1). rewrite a1, b1, c1 in B. cbn [t0 it_l it_b fst snd ex mag] in B. rewrite (proj2 one_ok), !Rmult_1_l, !Rplus_0_r, Rabs_R1, !Rmult_1_l in B. change (INR 1) with 1 in B; rewrite ?Rmult_1_l in B.
  set (dS := spread q (valv w) (valv da) (valv db)). set (dM := spread q (absf (valv w)) (absf (valv da)) (absf (valv db))).
  assert (EX : rsum q (fun k => ex (it_l (t1 k)) * val (it_b (t1 k))) = dS) by (unfold dS, spread, valv; apply rsum_ext; intros k _; cbn [t1 it_l it_b fst snd ex]; ring).
  assert (EY : rsum q (fun k => mag (it_l (t1 k)) * Rabs (val (it_b (t1 k)))) = dM) by (unfold dM, spread, valv, absf; apply rsum_ext; intros k _; cbn [t1 it_l it_b fst snd mag]; rewrite Rabs_mult; ring).
  assert (EZ : rsum q (fun k => Rabs (val (it_b (t1 k)))) = rsum q (absf (valv db))) by reflexivity.
  rewrite EX, EY, EZ in B. clear EX EY EZ a1 b1 c1. pose proof uu_pos as U. pose proof tiny_pos as T.
  set (xS := spread q (valv w) DA DB). set (xM := spread q (absf (valv w)) (absf DA) (absf DB)).
  assert (AB : forall u v, Rabs (u - v) <= uu * Rabs v -> Rabs u <= (1 + uu) * Rabs v) by (intros u v Hv; pose proof (Rabs_step u v 0) as S; rewrite !Rminus_0_r in S; lra).
  assert (D1 : Rabs (dS - xS) <= ((1 + uu) * (1 + uu) - 1) * xM).
  { unfold dS, xS, xM, spread, valv, absf. rewrite <- rsum_scal. apply rsum_diff. intros i Hq. destruct (DX i Hq) as [Da Db]. pose proof (AB _ _ Db) as Db'. set (ea := val (da i)) in *. set (eb := val (db i)) in *. set (W := val (w i)).
    replace (W * ea * eb - W * DA i * DB i) with (W * ((ea - DA i) * eb + DA i * (eb - DB i))) by ring. rewrite Rabs_mult.
    replace (((1 + uu) * (1 + uu) - 1) * (Rabs W * Rabs (DA i) * Rabs (DB i))) with (Rabs W * (uu * Rabs (DA i) * ((1 + uu) * Rabs (DB i)) + Rabs (DA i) * (uu * Rabs (DB i)))) by ring.
    apply Rmult_le_compat_l; [apply Rabs_pos|]. eapply Rle_trans; [apply Rabs_triang|]. rewrite !Rabs_mult. apply Rplus_le_compat; apply Rmult_le_compat; try apply Rabs_pos; try assumption. apply Rle_refl. }
  assert (D2 : dM <= (1 + uu) * (1 + uu) * xM).
  { unfold dM, xM, spread, valv, absf. rewrite <- rsum_scal. apply rsum_le. intros i Hq. destruct (DX i Hq) as [Da Db]. apply AB in Da, Db.
    replace ((1 + uu) * (1 + uu) * (Rabs (val (w i)) * Rabs (DA i) * Rabs (DB i))) with (Rabs (val (w i)) * ((1 + uu) * Rabs (DA i)) * ((1 + uu) * Rabs (DB i))) by ring.
    apply Rmult_le_compat; [apply Rmult_le_pos; apply Rabs_pos|apply Rabs_pos| |exact Db]. apply Rmult_le_compat_l; [apply Rabs_pos|exact Da]. }
  assert (D3 : rsum q (absf (valv db)) <= (1 + uu) * rsum q (absf DB)).
  { rewrite <- rsum_scal. apply rsum_le. intros i Hq. destruct (DX i Hq) as [_ Db]. apply AB, Db. }
  assert (XM : 0 <= xM) by (apply rsum_pos; intros; repeat apply Rmult_le_pos; apply Rabs_pos). assert (R3 : 0 <= rsum q (absf DB)) by (apply rsum_pos; intros; apply Rabs_pos).
  unfold rounding_spread. fold xS xM. fold uu tiny. fold (grow (q + 4)). replace (q + 4)%nat with (S q + 1 + 2)%nat by lia. pose proof (grow2 (S q + 1) 1) as G2. rewrite !Rmult_1_r in G2. rewrite G2. replace (q + 1)%nat with (S q) by lia.
  set (g := grow (S q + 1)) in *. assert (G : 1 <= g) by apply grow_ge1. set (h := (1 + uu) * (1 + uu)) in *. assert (H1 : 1 + uu <= h) by (unfold h; nra).
  set (k := INR (S q)) in *. assert (K0 : 0 <= k) by apply pos_INR. set (r3 := rsum q (absf DB)) in *. set (s3 := rsum q (absf (valv db))) in *. set (ar := Rabs (val r)) in *. assert (A0 : 0 <= ar) by apply Rabs_pos.
  pose proof (Rabs_step (val s) (val r + dS) (val r + xS)) as St. replace (val r + dS - (val r + xS)) with (dS - xS) in St by ring.
  assert (P1 : (g - 1) * (ar + dM) <= (g - 1) * (ar + h * xM)) by (apply Rmult_le_compat_l; lra).
  assert (P2 : (g - 1) * ar <= (h * g - 1) * ar) by (apply Rmult_le_compat_r; [lra|]; assert (1 * g <= h * g) by (apply Rmult_le_compat_r; lra); lra).
  assert (P3 : ar + s3 + k <= h * (k + (ar + r3))). { assert (1 * (k + ar) <= h * (k + ar)) by (apply Rmult_le_compat_r; lra). assert ((1 + uu) * r3 <= h * r3) by (apply Rmult_le_compat_r; lra). lra. }
  assert (P4 : tiny * g * (ar + s3 + k) <= tiny * g * (h * (k + (ar + r3)))) by (apply Rmult_le_compat_l; [apply Rmult_le_pos; lra|exact P3]).
  replace ((h * g - 1) * (ar + xM) + tiny * (h * g) * (k + (ar + r3))) with ((h * g - 1) * ar + ((g - 1) * (h * xM) + (h - 1) * xM) + tiny * g * (h * (k + (ar + r3)))) by ring.
  lra.
Qed.
Lemma sub_rel a b : finite (fsub64 a b) = true -> Rabs (val (fsub64 a b) - (val a - val b)) <= uu * Rabs (val a - val b).
Proof. intros F. destruct (sub_inv _ _ F) as (_ & _ & ->). replace (val a - val b) with (val a + - val b) by ring. apply rnd_err_plus; [apply fmt_val|apply generic_format_opp, fmt_val]. Qed.
Theorem C115_innovation_partial k q w Z zp Q S a b : ukf64_innovation k q w Z zp Q S -> (a < k)%nat -> (b < k)%nat -> finite (S a b) = true ->
  Rabs (val (S a b) - (val (Q a b) + spread q (valv w) (off Z zp a) (off Z zp b))) <= rounding_spread q (valv w) (off Z zp a) (off Z zp b) (val (Q a b)).
Proof.
  intros H Ha Hb F. eapply spread_error; [exact (H a b Ha Hb)|exact F|]. intros i _. split; apply sub_rel.
Qed.
Theorem C115_cross_partial n k q w X Z zp PC a b : ukf64_cross n k q w X Z zp PC -> (a < n)%nat -> (b < k)%nat -> finite (PC a b) = true ->
  Rabs (val (PC a b) - spread q (valv w) (fun i => val (X a i) - val (X a 0%nat)) (off Z zp b)) <= rounding_spread q (valv w) (fun i => val (X a i) - val (X a 0%nat)) (off Z zp b) 0.
Proof.
  intros H Ha Hb F. specialize (H a b Ha Hb). cbv beta zeta in H.
  assert (F' : finite (fadd64 fzero (PC a b)) = true /\ val (fadd64 fzero (PC a b)) = val (PC a b)).
  { destruct (fadd_cases fzero (PC a b) eq_refl F) as [(F1 & V)|(Inf & _)].
    - split; [exact F1|]. rewrite V. change (val fzero) with 0. rewrite Rplus_0_l. apply rnd_id, fmt_val.
    - exfalso. destruct (PC a b) as [s|s| |s m e B]; try discriminate F; [destruct s; discriminate Inf|discriminate Inf]. }
  destruct F' as [F1 V1]. pose proof (spread_error q w (fun i => fsub64 (X a i) (X a 0%nat)) (fun i => fsub64 (Z b i) (zp b)) (fun i => val (X a i) - val (X a 0%nat)) (off Z zp b) fzero (fadd64 fzero (PC a b))) as E.
  rewrite V1 in E. change (val fzero) with 0 in E. rewrite Rplus_0_l in E. apply E; [|exact F1|intros i _; split; apply sub_rel].
  apply (sum_add [_]); [apply sum_one|exact H].
Qed.
(** the gain, with inv what inverse() returned *)
Theorem C115_gain_partial n k PC inv K i a : product n k k PC inv K -> (i < n)%nat -> (a < k)%nat -> finite (K i a) = true ->
  Rabs (val (K i a) - rsum k (fun b => val (PC i b) * val (inv b a))) <= ((1 + bpow radix2 (-53)) ^ k - 1) * rsum k (fun b => Rabs (val (PC i b)) * Rabs (val (inv b a)))
    + INR k * bpow radix2 (-1075) * (1 + bpow radix2 (-53)) ^ k.
Proof.
  intros H Hi Ha F. destruct (sums_error _ _ (H i a Hi Ha) F) as [_ N]. unfold near in N. rewrite ex_pairs, mag_pairs, pairs_length in N. exact N.
Qed.

(** ** The covariance *)
Theorem C115_covariance_partial n k cov K S cov' i j : ukf64_corrected_cov n k cov K S cov' -> (i < n)%nat -> (j < n)%nat -> finite (cov' i j) = true ->
  Rabs (val (cov' i j) - exact_ukf_corr k (vals cov) (vals K) (vals S) i j) <= rounding_ukf_corr k cov K S i j.
Proof.
  intros (KS & H1 & H2) Hi Hj F. specialize (H2 i j Hi Hj).
  set (t0 := ([(fone, fone)], fone, cov i j) : item). set (t1 := fun a => (pairs k (fun b => fopp64 (K i b)) (fun b => S b a), fopp64 (KS i a), K j a) : item).
  set (L := t0 :: items k t1). assert (EL : (fone, cov i j) :: pairs k (fun a => fopp64 (KS i a)) (K j) = outer L) by (unfold L, outer, items, pairs; cbn [map]; rewrite map_map; reflexivity).
  rewrite EL in H2. destruct (sums_error _ _ H2 F) as (Fo & N).
  assert (HL : Forall (fun t => Rabs (val (it_c t) - ex (it_l t)) <= (grow (k + 1) - 1) * mag (it_l t) + INR (k + 1) * tiny * grow (k + 1)) L).
  { rewrite <- EL in Fo. inversion Fo as [|? ? _ Fp]; subst. rewrite Forall_forall in Fp. unfold L. constructor.
    - apply near_weaken; [cbn [t0 it_l fst snd length]; lia|]. apply (sums_error [(fone, fone)]); [apply sum_one|reflexivity].
    - unfold items. rewrite Forall_map, Forall_forall. intros a Ha. assert (Ha' := Ha). apply in_seq in Ha'.
      assert (Fa : finite (KS i a) = true). { destruct (Fp (fopp64 (KS i a), K j a)) as [A1 _]; [unfold pairs; apply in_map_iff; exists a; split; [reflexivity|exact Ha]|]. cbn [fst] in A1. unfold fopp64 in A1. rewrite is_finite_Bopp in A1. exact A1. }
      destruct (sums_error _ _ (H1 i a Hi ltac:(lia)) Fa) as [_ Na]. pose proof (near_weaken (k + 1) (pairs k (K i) (fun b => S b a)) (val (KS i a)) ltac:(rewrite pairs_length; lia) Na) as W. cbn [t1 it_l it_c fst snd].
      rewrite ex_pairs, mag_pairs in *. rewrite opp_val.
      rewrite (rsum_ext k (fun b => val (fopp64 (K i b)) * val (S b a)) (fun b => -1 * (val (K i b) * val (S b a)))) by (intros; rewrite opp_val; ring). rewrite rsum_scal.
      rewrite (rsum_ext k (fun b => Rabs (val (fopp64 (K i b))) * Rabs (val (S b a))) (fun b => Rabs (val (K i b)) * Rabs (val (S b a)))) by (intros; rewrite opp_val, Rabs_Ropp; reflexivity).
      set (e := rsum k (fun b => val (K i b) * val (S b a))) in *. replace (- val (KS i a) - -1 * e) with (- (val (KS i a) - e)) by ring. rewrite Rabs_Ropp. exact W. }
  pose proof (near2 (k + 1) L _ HL N) as B. unfold L in B. cbn [length ex2 mag2 abs2] in B. rewrite items_length in B. destruct (items_ex2 k t1) as (a1 & b1 & c1). rewrite a1, b1, c1 in B.
  cbn [t0 it_l it_b fst snd ex mag] in B. rewrite (proj2 one_ok), !Rmult_1_l, !Rplus_0_r, Rabs_R1, !Rmult_1_l in B.
  assert (X : rsum k (fun a => ex (it_l (t1 a)) * val (it_b (t1 a))) = - sandwich k (vals K) (vals S) i j).
  { unfold sandwich. rewrite (rsum_ext k _ (fun a => -1 * (rsum k (fun l => vals K i l * vals S l a) * vals K j a))); [rewrite rsum_scal; ring|]. intros a _. cbn [t1 it_l it_b fst snd]. rewrite ex_pairs. unfold vals.
    rewrite (rsum_ext k (fun b => val (fopp64 (K i b)) * val (S b a)) (fun b => -1 * (val (K i b) * val (S b a)))) by (intros; rewrite opp_val; ring). rewrite rsum_scal. ring. }
  assert (Y : rsum k (fun a => mag (it_l (t1 a)) * Rabs (val (it_b (t1 a)))) = sandwich k (mags K) (mags S) i j).
  { unfold sandwich. apply rsum_ext. intros a _. cbn [t1 it_l it_b fst snd]. rewrite mag_pairs. unfold mags. f_equal. apply rsum_ext. intros b _. rewrite opp_val, Rabs_Ropp. reflexivity. }
  rewrite X, Y in B. unfold exact_ukf_corr, rounding_ukf_corr. fold uu tiny. fold (grow (2 * (k + 1))). replace (2 * (k + 1))%nat with (Datatypes.S k + (k + 1))%nat by lia. fold (vals cov i j) in B. fold (mags cov i j) in B.
  change (rsum k (fun a => Rabs (val (it_b (t1 a))))) with (rsum k (mags K j)) in B. unfold Rminus at 2. replace (INR (Datatypes.S k)) with (INR (k + 1)) in B by (f_equal; lia).
  eapply Rle_trans; [exact B|]. apply Req_le. change (Rabs (vals cov i j)) with (mags cov i j). ring.
Qed.
(** symmetric up to rounding and the asymmetry of S *)
Theorem C115_symmetry_partial n k cov K S cov' i j : sym_mat n (vals cov) -> ukf64_corrected_cov n k cov K S cov' -> (i < n)%nat -> (j < n)%nat -> finite_mat n n cov' ->
  Rabs (val (cov' i j) - val (cov' j i)) <= rounding_ukf_corr k cov K S i j + rounding_ukf_corr k cov K S j i
    + rsum k (fun a => rsum k (fun b => Rabs (val (K i b)) * Rabs (val (K j a)) * Rabs (val (S b a) - val (S a b)))).
Proof.
  intros SP H Hi Hj F. pose proof (C115_covariance_partial n k cov K S cov' i j H Hi Hj (F i j Hi Hj)) as E1. pose proof (C115_covariance_partial n k cov K S cov' j i H Hj Hi (F j i Hj Hi)) as E2.
  set (e := exact_ukf_corr k (vals cov) (vals K) (vals S) i j) in *. set (f := exact_ukf_corr k (vals cov) (vals K) (vals S) j i) in *.
  eapply Rle_trans; [apply (Rabs_step _ e)|]. assert (G : Rabs (e - val (cov' j i)) <= rounding_ukf_corr k cov K S j i + Rabs (e - f)).
  { eapply Rle_trans; [apply (Rabs_step _ f)|]. rewrite (Rabs_minus_sym f). lra. }
  assert (B : Rabs (e - f) <= rsum k (fun a => rsum k (fun b => Rabs (val (K i b)) * Rabs (val (K j a)) * Rabs (val (S b a) - val (S a b))))).
  { unfold e, f, exact_ukf_corr. rewrite (SP i j Hi Hj). replace (vals cov j i - sandwich k (vals K) (vals S) i j - (vals cov j i - sandwich k (vals K) (vals S) j i)) with (- (sandwich k (vals K) (vals S) i j - sandwich k (vals K) (vals S) j i)) by ring. rewrite Rabs_Ropp.
    assert (W : sandwich k (vals K) (vals S) j i = rsum k (fun a => rsum k (fun b => val (K j a) * val (S a b) * val (K i b)))).
    { unfold sandwich. rewrite (rsum_ext k _ (fun b => rsum k (fun a => val (K j a) * val (S a b) * val (K i b)))) by (intros; rewrite <- rsum_scal_r; reflexivity). apply rsum_swap. }
    rewrite W. unfold sandwich. apply rsum_diff. intros a _. rewrite <- rsum_scal_r. apply rsum_diff. intros b _. unfold vals.
    replace (val (K i b) * val (S b a) * val (K j a) - val (K j a) * val (S a b) * val (K i b)) with (val (K i b) * val (K j a) * (val (S b a) - val (S a b))) by ring. rewrite !Rabs_mult. apply Rle_refl. }
  lra.
Qed.
(** no variance grows by more than rounding, when S is positive semidefinite along the gain *)
Theorem C115_decrease_partial n k cov K S cov' i : ukf64_corrected_cov n k cov K S cov' -> (i < n)%nat -> finite (cov' i i) = true ->
  0 <= form k (vals S) (vals K i) -> val (cov' i i) <= val (cov i i) + rounding_ukf_corr k cov K S i i.
Proof.
  intros H Hi F HS. pose proof (C115_covariance_partial n k cov K S cov' i i H Hi Hi F) as E. apply Rabs_le_inv in E. unfold exact_ukf_corr in E. change (vals cov i i) with (val (cov i i)) in E.
  assert (P : sandwich k (vals K) (vals S) i i = form k (vals S) (vals K i)).
  { unfold sandwich, form. rewrite (rsum_ext k _ (fun a => rsum k (fun l => vals K i l * vals S l a * vals K i a))) by (intros; rewrite <- rsum_scal_r; reflexivity). rewrite rsum_swap. apply rsum_ext. intros a _. apply rsum_ext. intros; ring. }
  rewrite P in E. lra.
Qed.

(** ** A negative variance: one state at 0 with variance 182, its value is measured with variance 2^-44 *)
Definition g_lambda : f64 := fsub64 (fmul64 w_a2 (fadd64 (f_of_nat 1) fzero)) (f_of_nat 1).
Definition g_c : f64 := fadd64 (f_of_nat 1) g_lambda.
Definition g_P : f64 := fz 182.
Definition g_Q : f64 := binary_normalize 53 1024 prec64_gt_0 prec64_lt mode_NE 1 (-44) false.
Definition g_L : f64 := fsqrt64 (fmul64 g_c g_P).
Definition g_Lm : fmat := fun i j => match i, j with 0, 0 => g_L | _, _ => fzero end%nat.
Definition g_X : fmat := ukf64_points 1 (fun _ => fzero) g_Lm.
Definition g_w : fvec := ukf64_w_cov 1 g_lambda w_a2 (fz 2).
Definition g_m : fvec := ukf64_w_mean 1 g_lambda.
Definition g_zp : f64 := fadd64 (fadd64 (fmul64 (g_m 0%nat) (g_X 0%nat 0%nat)) (fmul64 (g_m 1%nat) (g_X 0%nat 1%nat))) (fmul64 (g_m 2%nat) (g_X 0%nat 2%nat)).
Definition g_dz (i : nat) : f64 := fsub64 (g_X 0%nat i) g_zp.
Definition g_dx (i : nat) : f64 := fsub64 (g_X 0%nat i) (g_X 0%nat 0%nat).
Definition g_S : f64 := fadd64 (fadd64 (fadd64 g_Q (fmul64 (fmul64 (g_w 0%nat) (g_dz 0)) (g_dz 0))) (fmul64 (fmul64 (g_w 1%nat) (g_dz 1)) (g_dz 1))) (fmul64 (fmul64 (g_w 2%nat) (g_dz 2)) (g_dz 2)).
Definition g_PC : f64 := fadd64 (fadd64 (fmul64 (fmul64 (g_w 0%nat) (g_dx 0)) (g_dz 0)) (fmul64 (fmul64 (g_w 1%nat) (g_dx 1)) (g_dz 1))) (fmul64 (fmul64 (g_w 2%nat) (g_dx 2)) (g_dz 2)).
Definition g_inv : f64 := fdiv64 fone g_S.
Definition g_K : f64 := fmul64 g_PC g_inv.
Definition g_KS : f64 := fmul64 g_K g_S.
Definition g_cov' : f64 := fadd64 g_P (fmul64 (fopp64 g_KS) g_K).
Definition g_x' : f64 := fadd64 fzero (fmul64 g_K (fsub64 fone g_zp)).
Lemma g_offsets : ukf64_offsets 1 g_c (fun _ _ => g_P) g_Lm.
Proof.
  split; [intros [|i] [|j] H; try lia; reflexivity|]. exists 1%nat. split; [lia|]. split; [|lia]. intros k Hk. replace k with 0%nat by lia. split; [|intros; lia].
  exists (fmul64 g_c g_P). split; [apply sum_one|]. split; [vm_compute; reflexivity|reflexivity].
Qed.
Lemma g_runs : ukf64_correct 1 1 w_a2 g_lambda (fz 2) (fun x => x) inverts1 (fun _ => fzero) (fun _ => fone) (fun _ _ => g_P) (fun _ _ => g_Q) (fun _ => g_x') (fun _ _ => g_cov').
Proof.
  exists g_Lm, (fun _ => g_zp), (fun _ _ => g_S), (fun _ _ => g_PC), (fun _ _ => g_inv), (fun _ _ => g_K). cbv zeta. fold g_c g_X g_w g_m.
  assert (Row : forall l i, (l < 1)%nat -> g_X l i = g_X 0%nat i) by (intros l i Hl; replace l with 0%nat by lia; reflexivity).
  split; [left; reflexivity|]. split; [exact g_offsets|]. split; [|split; [|split; [|split; [|split; [|split]]]]].
  - intros l Hl. replace l with 0%nat by lia. change (pairs (2 * 1 + 1) g_m (fun i => g_X 0%nat i)) with (([(g_m 0%nat, g_X 0%nat 0%nat)] ++ [(g_m 1%nat, g_X 0%nat 1%nat)]) ++ [(g_m 2%nat, g_X 0%nat 2%nat)]).
    repeat apply sum_add; apply sum_prod.
  - intros a b Ha Hb. replace a with 0%nat by lia. replace b with 0%nat by lia.
    change (sums (((([(fone, g_Q)] ++ [(fmul64 (g_w 0%nat) (g_dz 0), g_dz 0)]) ++ [(fmul64 (g_w 1%nat) (g_dz 1), g_dz 1)])) ++ [(fmul64 (g_w 2%nat) (g_dz 2), g_dz 2)]) g_S).
    repeat apply sum_add; try apply sum_prod. apply sum_one.
  - intros a b Ha Hb. replace a with 0%nat by lia. replace b with 0%nat by lia.
    change (sums (([(fmul64 (g_w 0%nat) (g_dx 0), g_dz 0)] ++ [(fmul64 (g_w 1%nat) (g_dx 1), g_dz 1)]) ++ [(fmul64 (g_w 2%nat) (g_dx 2), g_dz 2)]) g_PC).
    repeat apply sum_add; apply sum_prod.
  - reflexivity.
  - intros i j _ _. apply sum_prod.
  - exists (fun _ => fsub64 fone g_zp), (fun _ => fmul64 g_K (fsub64 fone g_zp)). split; [intros; reflexivity|]. intros i _. split; [apply sum_prod|reflexivity].
  - exists (fun _ _ => g_KS). split; [intros i j _ _; apply sum_prod|]. intros i j _ _. apply (sum_add [_] [_]); [apply sum_one|apply sum_prod].
Qed.
Theorem C115_refuted : ~ C115_claim.
Proof.
  intros H. assert (Nq : neg64 (fopp64 g_Q) = true) by (vm_compute; reflexivity). apply neg64_val in Nq. rewrite opp_val in Nq.
  specialize (H 1%nat w_a2 g_lambda (fun x => x) (fun _ => fzero) (fun _ => fone) (fun _ _ => g_P) (fun _ _ => g_Q) (fun _ => g_x') (fun _ _ => g_cov') ltac:(lia) w_a2_ok).
  assert (Cv : cov_mat 1 (vals (fun _ _ => g_P))).
  { split; [intros i j _ _; reflexivity|]. intros y. unfold form, vals. cbn [rsum]. unfold g_P. rewrite fz_val by (vm_compute; discriminate). pose proof (Rle_0_sqr (y 0%nat)) as Q. unfold Rsqr in Q. lra. }
  specialize (H Cv ltac:(lra) g_runs). assert (N : neg64 g_cov' = true) by (vm_compute; reflexivity). apply neg64_val in N.
  assert (Fc : finite_mat 1 1 (fun _ _ => g_cov')) by (intros i j _ _; vm_compute; reflexivity). specialize (H Fc 0%nat ltac:(lia)). lra.
Qed.
(** ** The sigma points: the state, the state plus the columns of the square root, the state minus them, each entry rounded once *)
Theorem C115_points_partial n x L a : (a < n)%nat ->
  (forall i, (i < 2 * n + 1)%nat -> finite (ukf64_points n x L a i) = true) ->
  ukf64_points n x L a 0%nat = x a /\
  forall c, (c < n)%nat ->
    Rabs (val (ukf64_points n x L a (c + 1)%nat) - (val (x a) + val (L a c))) <= bpow radix2 (-53) * Rabs (val (x a) + val (L a c)) /\
    Rabs (val (ukf64_points n x L a (n + c + 1)%nat) - (val (x a) - val (L a c))) <= bpow radix2 (-53) * Rabs (val (x a) - val (L a c)).
Proof.
  intros Ha F. split; [reflexivity|]. intros c Hc. pose proof (F (c + 1)%nat ltac:(lia)) as F1. pose proof (F (n + c + 1)%nat ltac:(lia)) as F2.
  assert (E1 : ukf64_points n x L a (c + 1)%nat = fadd64 (x a) (L a c)).
  { unfold ukf64_points. destruct (Nat.eqb_spec (c + 1) 0); [lia|]. destruct (Nat.leb_spec (c + 1) n); [|lia]. f_equal. f_equal. lia. }
  assert (E2 : ukf64_points n x L a (n + c + 1)%nat = fsub64 (x a) (L a c)).
  { unfold ukf64_points. destruct (Nat.eqb_spec (n + c + 1) 0); [lia|]. destruct (Nat.leb_spec (n + c + 1) n); [lia|]. f_equal. f_equal. lia. }
  rewrite E1 in F1 |- *. rewrite E2 in F2 |- *. fold uu. split.
  - destruct (add_inv _ _ F1) as (Fx & Fl & V). rewrite V. apply rnd_err_plus; apply generic_format_B2R.
  - destruct (sub_inv _ _ F2) as (Fx & Fl & V). rewrite V. unfold Rminus. apply rnd_err_plus; [apply generic_format_B2R|apply generic_format_opp, generic_format_B2R].
Qed.
(** the hypotheses of the bounds are met by that correction *)
Example C115_nonvacuous : ukf64_correct 1 1 w_a2 g_lambda (fz 2) (fun x => x) inverts1 (fun _ => fzero) (fun _ => fone) (fun _ _ => g_P) (fun _ _ => g_Q) (fun _ => g_x') (fun _ _ => g_cov')
  /\ ukf64_innovation 1 3 g_w g_X (fun _ => g_zp) (fun _ _ => g_Q) (fun _ _ => g_S) /\ ukf64_cross 1 1 3 g_w g_X g_X (fun _ => g_zp) (fun _ _ => g_PC) /\ finite g_S = true /\ finite g_PC = true /\ finite g_K = true /\ finite g_cov' = true
  /\ sym_mat 1 (vals (fun _ _ => g_P)) /\ product 1 1 1 (fun _ _ => g_PC) (fun _ _ => g_inv) (fun _ _ => g_K) /\ ukf64_corrected_cov 1 1 (fun _ _ => g_P) (fun _ _ => g_K) (fun _ _ => g_S) (fun _ _ => g_cov') /\ 0 <= form 1 (vals (fun _ _ => g_S)) (vals (fun _ _ => g_K) 0%nat).
Proof.
  split; [exact g_runs|]. split.
  { intros a b Ha Hb. replace a with 0%nat by lia. replace b with 0%nat by lia.
    change (sums (((([(fone, g_Q)] ++ [(fmul64 (g_w 0%nat) (g_dz 0), g_dz 0)]) ++ [(fmul64 (g_w 1%nat) (g_dz 1), g_dz 1)])) ++ [(fmul64 (g_w 2%nat) (g_dz 2), g_dz 2)]) g_S).
    repeat apply sum_add; try apply sum_prod. apply sum_one. }
  split.
  { intros a b Ha Hb. replace a with 0%nat by lia. replace b with 0%nat by lia.
    change (sums (([(fmul64 (g_w 0%nat) (g_dx 0), g_dz 0)] ++ [(fmul64 (g_w 1%nat) (g_dx 1), g_dz 1)]) ++ [(fmul64 (g_w 2%nat) (g_dx 2), g_dz 2)]) g_PC).
    repeat apply sum_add; apply sum_prod. }
  do 4 (split; [vm_compute; reflexivity|]). split; [intros i j _ _; reflexivity|]. split; [intros i j _ _; apply sum_prod|]. split.
  { exists (fun _ _ => g_KS). split; [intros i j _ _; apply sum_prod|]. intros i j _ _. apply (sum_add [_] [_]); [apply sum_one|apply sum_prod]. }
  unfold form, vals. cbn [rsum]. assert (N : neg64 (fopp64 g_S) = true) by (vm_compute; reflexivity). apply neg64_val in N. rewrite opp_val in N. pose proof (Rle_0_sqr (val g_K)) as Q. unfold Rsqr in Q. set (s := val g_S) in *. set (k := val g_K) in *. clearbody s k.
  assert (0 <= s * (k * k)) by (apply Rmult_le_pos; lra). lra.
Qed.
