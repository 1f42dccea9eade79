(** C118: a measurement that reads one state directly, in double arithmetic *)
From Coq Require Import ZArith Reals Lra Lia Bool List Permutation.
From Flocq Require Import Core IEEE754.BinarySingleNaN.
From Verif Require Import Outcome FB_Model FloatTime AngleFloat KF_Float MatFloat UKFFloat LltFloat LuFloat Props_MatFloat Props_MatFloatC Props_UKFFloat Props_Llt Props_FloatRun Props_LuFloat.
Import ListNotations.
Open Scope R_scope.

(** ** Sums of products most of which are 0 are rounded once *)
Definition prod_of (p : f64 * f64) : R := val (fst p) * val (snd p).
Fixpoint cnt (l : list (f64 * f64)) : nat := match l with [] => 0 | p :: l => (if Req_EM_T (prod_of p) 0 then 0 else 1) + cnt l end.
Definition rep (p : f64 * f64) : Prop := fmt64 (prod_of p).
Definition few (l : list (f64 * f64)) : Prop := (cnt l <= 1)%nat \/ ((cnt l <= 2)%nat /\ Forall rep l).
Lemma cnt_app l l' : cnt (l ++ l') = (cnt l + cnt l')%nat.
Proof. induction l as [|p l IH]; cbn [app cnt]; [reflexivity|]. rewrite IH. lia. Qed.
Lemma cnt_perm l l' : Permutation l l' -> cnt l = cnt l'.
Proof. induction 1; cbn [cnt]; lia. Qed.
Lemma cnt0 l : cnt l = 0%nat -> ex l = 0.
Proof.
  induction l as [|p l IH]; cbn [cnt ex]; intros H; [reflexivity|]. destruct (Req_EM_T (prod_of p) 0) as [E|E]; [|lia].
  rewrite IH by lia. unfold prod_of in E. rewrite E. ring.
Qed.
Lemma ex_fmt l : (cnt l <= 1)%nat -> Forall rep l -> fmt64 (ex l).
Proof.
  intros H F. induction F as [|p l Hp F IH]; cbn [ex]; [apply generic_format_0|]. cbn [cnt] in H. fold (prod_of p).
  destruct (Req_EM_T (prod_of p) 0) as [E|E].
  - rewrite E, Rplus_0_l. apply IH. lia.
  - rewrite (cnt0 l) by lia. rewrite Rplus_0_r. exact Hp.
Qed.
Lemma few_app l l' : few (l ++ l') -> few l /\ few l' /\ (cnt l = 0%nat \/ cnt l' = 0%nat \/ (fmt64 (ex l) /\ fmt64 (ex l'))).
Proof.
  intros [H|[H F]]; rewrite cnt_app in H.
  - split; [left; lia|]. split; [left; lia|]. lia.
  - apply Forall_app in F as [F F']. split; [right; split; [lia|exact F]|]. split; [right; split; [lia|exact F']|].
    destruct (Nat.eq_dec (cnt l) 0) as [E|E]; [left; exact E|]. destruct (Nat.eq_dec (cnt l') 0) as [E'|E']; [right; left; exact E'|].
    right. right. split; apply ex_fmt; auto; lia.
Qed.
Lemma big_fmt : fmt64 big.
Proof. apply generic_format_bpow. unfold SpecFloat.fexp, SpecFloat.emin. lia. Qed.
Lemma rnd_big x : Rabs x <= big -> Rabs (rnd64 x) <= big.
Proof. intros H. rewrite rnd_abs. apply rnd_le_fmt; [exact big_fmt|exact H]. Qed.
Lemma rnd_rnd x : rnd64 (rnd64 x) = rnd64 x.
Proof. apply rnd_id, generic_format_round; [apply valid64|apply valid_rnd_N]. Qed.
Lemma rnd_sum a b : (a = 0 \/ b = 0 \/ (fmt64 a /\ fmt64 b)) -> rnd64 (rnd64 a + rnd64 b) = rnd64 (a + b).
Proof.
  intros [-> |[-> |[Fa Fb]]].
  - rewrite rnd_0, !Rplus_0_l. apply rnd_rnd.
  - rewrite rnd_0, !Rplus_0_r. apply rnd_rnd.
  - rewrite (rnd_id a Fa), (rnd_id b Fb). reflexivity.
Qed.
Lemma rnd_sum_big a b : (a = 0 \/ b = 0 \/ (fmt64 a /\ fmt64 b)) -> Rabs a + Rabs b <= big -> Rabs (rnd64 a + rnd64 b) <= big.
Proof.
  pose proof (Rabs_pos a). pose proof (Rabs_pos b). intros [-> |[-> |[Fa Fb]]] M.
  - rewrite rnd_0, Rplus_0_l. apply rnd_big. lra.
  - rewrite rnd_0, Rplus_0_r. apply rnd_big. lra.
  - rewrite (rnd_id a Fa), (rnd_id b Fb). eapply Rle_trans; [apply Rabs_triang|exact M].
Qed.
Lemma sums_exact l y : sums l y -> all_finite l -> few l -> mag l <= big -> finite y = true /\ val y = rnd64 (ex l).
Proof.
  induction 1 as [|a|a b|a b l c H IH|l l' c c' H IH H' IH'|l l' c Hp H IH]; intros F W M.
  - split; [reflexivity|]. cbn [ex]. rewrite rnd_0. reflexivity.
  - inversion F as [|? ? [_ Fa] _]; subst. split; [exact Fa|]. cbn [ex fst snd]. rewrite (proj2 one_ok), Rmult_1_l, Rplus_0_r. symmetry. apply rnd_id, fmt_val.
  - inversion F as [|? ? [Fa Fb] _]; subst. cbn [fst snd] in Fa, Fb. cbn [mag ex fst snd] in M |- *. rewrite Rplus_0_r in M |- *. apply mul_ok; assumption.
  - change ((a, b) :: l) with ([(a, b)] ++ l) in W. apply few_app in W as (W1 & W2 & W3). inversion F as [|? ? [Fa Fb] F2]; subst. cbn [fst snd] in Fa, Fb.
    cbn [mag ex fst snd] in M |- *. cbn [ex cnt fst snd] in W3. rewrite Rplus_0_r in W3. set (p := val a * val b) in *.
    pose proof (Rabs_pos p) as P. destruct (IH F2 W2) as [Fc Vc]; [lra|]. pose proof (ex_mag l) as Em.
    assert (W : p = 0 \/ rnd64 (ex l) = ex l).
    { destruct W3 as [W3|[W3|[_ W3]]].
      - left. unfold prod_of in W3. cbn [fst snd] in W3. fold p in W3. destruct (Req_EM_T p 0) as [E|E]; [exact E|lia].
      - right. rewrite (cnt0 l W3). apply rnd_0.
      - right. apply rnd_id, W3. }
    assert (B : Rabs (p + val c) <= big).
    { rewrite Vc. destruct W as [-> | ->]; [rewrite Rplus_0_l; apply rnd_big; lra|]. eapply Rle_trans; [apply Rabs_triang|]. lra. }
    pose proof (fma_ok a b c Fa Fb Fc B) as Fy. split; [exact Fy|]. destruct (fma_inv a b c Fy) as (_ & _ & _ & ->). fold p. rewrite Vc.
    destruct W as [-> | ->]; [rewrite !Rplus_0_l; apply rnd_rnd|reflexivity].
  - apply Forall_app in F as [F F']. apply few_app in W as (W1 & W2 & W3). rewrite mag_app in M.
    pose proof (mag_pos l). pose proof (mag_pos l'). destruct (IH F W1) as [Fc Vc]; [lra|]. destruct (IH' F' W2) as [Fc' Vc']; [lra|].
    assert (W : ex l = 0 \/ ex l' = 0 \/ (fmt64 (ex l) /\ fmt64 (ex l'))).
    { destruct W3 as [W3|[W3|W3]]; [left; apply cnt0, W3|right; left; apply cnt0, W3|right; right; exact W3]. }
    pose proof (ex_mag l). pose proof (ex_mag l').
    destruct (add_ok c c' Fc Fc') as [Fy Vy]; [rewrite Vc, Vc'; apply rnd_sum_big; [exact W|lra]|]. split; [exact Fy|].
    rewrite Vy, Vc, Vc', ex_app. apply rnd_sum, W.
  - rewrite <- (ex_perm _ _ Hp). apply IH.
    + unfold all_finite. eapply Permutation_Forall; [apply Permutation_sym, Hp|exact F].
    + unfold few. rewrite (cnt_perm _ _ Hp). destruct W as [W|[W1 W2]]; [left; exact W|right]. split; [exact W1|]. eapply Permutation_Forall; [apply Permutation_sym, Hp|exact W2].
    + rewrite (mag_perm _ _ Hp). exact M.
Qed.

(** ** Products with a unit vector *)
Definition unit_vec (n j : nat) (g : nat -> R) : Prop := forall l, (l < n)%nat -> g l = if Nat.eqb l j then 1 else 0.
Lemma cnt_pairs n j f g : (forall l, (l < n)%nat -> l <> j -> val (f l) * val (g l) = 0) -> (cnt (pairs n f g) <= if Nat.ltb j n then 1 else 0)%nat.
Proof.
  induction n as [|n IH]; intros H; [cbn; lia|]. rewrite pairs_S, cnt_app. cbn [cnt]. unfold prod_of. cbn [fst snd].
  assert (I : (cnt (pairs n f g) <= if Nat.ltb j n then 1 else 0)%nat) by (apply IH; intros l Hl; apply H; lia). revert I.
  destruct (Req_EM_T (val (f n) * val (g n)) 0) as [E|E].
  - destruct (Nat.ltb_spec j n); destruct (Nat.ltb_spec j (S n)); lia.
  - destruct (Nat.eq_dec n j) as [->|D]; [|exfalso; apply E, H; [lia|exact D]]. rewrite Nat.ltb_irrefl. destruct (Nat.ltb_spec j (S j)); lia.
Qed.
Lemma pairs_Forall (P : f64 * f64 -> Prop) n f g : (forall l, (l < n)%nat -> P (f l, g l)) -> Forall P (pairs n f g).
Proof. intros H. unfold pairs. rewrite Forall_map, Forall_forall. intros l Hl. apply in_seq in Hl. apply H. lia. Qed.
Lemma single_pairs n j f g : (j < n)%nat -> (forall l, (l < n)%nat -> l <> j -> val (f l) * val (g l) = 0) ->
  (cnt (pairs n f g) <= 1)%nat /\ ex (pairs n f g) = val (f j) * val (g j) /\ mag (pairs n f g) = Rabs (val (f j) * val (g j)).
Proof.
  intros Hj H. split; [|split].
  - pose proof (cnt_pairs n j f g H) as I. destruct (Nat.ltb_spec j n); lia.
  - rewrite ex_pairs, (rsum_ext n _ (fun l => if Nat.eqb l j then val (f l) * val (g l) else 0)); [apply (rsum_delta n j (fun l => val (f l) * val (g l)) Hj)|].
    intros l Hl. destruct (Nat.eqb_spec l j) as [->|D]; [reflexivity|apply H; assumption].
  - rewrite mag_pairs, (rsum_ext n _ (fun l => if Nat.eqb l j then Rabs (val (f l) * val (g l)) else 0)); [apply (rsum_delta n j (fun l => Rabs (val (f l) * val (g l))) Hj)|].
    intros l Hl. rewrite <- Rabs_mult. destruct (Nat.eqb_spec l j) as [->|D]; [reflexivity|rewrite (H l Hl D), Rabs_R0; reflexivity].
Qed.
(** the product with a vector one of whose entries is 1 and the others 0 is exact *)
Lemma unit_sum n j f g y : (j < n)%nat -> unit_vec n j (fun l => val (g l)) -> (forall l, (l < n)%nat -> finite (f l) = true /\ finite (g l) = true) ->
  Rabs (val (f j)) <= big -> sums (pairs n f g) y -> finite y = true /\ val y = val (f j).
Proof.
  intros Hj Hg F B H. destruct (single_pairs n j f g Hj) as (C & E & M).
  { intros l Hl D. rewrite (Hg l Hl). destruct (Nat.eqb_spec l j); [contradiction|ring]. }
  rewrite (Hg j Hj), Nat.eqb_refl, Rmult_1_r in E, M.
  destruct (sums_exact _ _ H) as [Fy Vy]; [apply pairs_Forall; exact F|left; exact C|rewrite M; exact B|].
  split; [exact Fy|]. rewrite Vy, E. apply rnd_id, fmt_val.
Qed.
Lemma one_sum a b y : finite a = true -> finite b = true -> Rabs (val a * val b) <= big -> sums [(a, b)] y -> finite y = true /\ val y = rnd64 (val a * val b).
Proof.
  intros Fa Fb B H. destruct (sums_exact _ _ H) as [Fy Vy].
  - constructor; [split; assumption|constructor].
  - left. cbn [cnt]. destruct (Req_EM_T _ _); lia.
  - cbn [mag fst snd]. lra.
  - split; [exact Fy|]. rewrite Vy. cbn [ex fst snd]. rewrite Rplus_0_r. reflexivity.
Qed.
Lemma one_sum' a y : finite a = true -> Rabs (val a) <= big -> sums [(fone, a)] y -> finite y = true /\ val y = val a.
Proof.
  intros Fa B H. destruct (one_sum fone a y eq_refl Fa) as [Fy Vy]; [rewrite (proj2 one_ok), Rmult_1_l; exact B|exact H|].
  split; [exact Fy|]. rewrite Vy, (proj2 one_ok), Rmult_1_l. apply rnd_id, fmt_val.
Qed.

(** ** The reciprocal: a correctly rounded x * (1 / s) is at most 1 for 0 <= x <= s *)
Lemma rnd_one_up : rnd64 (1 + uu) = 1.
Proof.
  set (h := @B754_finite 53 1024 false 4503599627370496 (-105) eq_refl : f64).
  assert (V : val h = uu). { unfold val, h, B2R, F2R. cbn [cond_Zopp Fnum Fexp]. change (IZR (Zpos 4503599627370496)) with (bpow radix2 52). rewrite <- bpow_plus. reflexivity. }
  destruct (add_ok fone h eq_refl eq_refl) as [_ E].
  { rewrite (proj2 one_ok), V, Rabs_pos_eq by (pose proof uu_pos; lra). pose proof uu_val as U. apply Rle_trans with (bpow radix2 1); [change (bpow radix2 1) with 2; lra|]. apply bpow_le. lia. }
  rewrite (proj2 one_ok), V in E. rewrite <- E. assert (Q : fadd64 fone h = fone) by (apply B2SF_inj; vm_compute; reflexivity). rewrite Q. apply one_ok.
Qed.
Lemma recip_le x s : 0 <= x <= s -> bpow radix2 (-900) <= s <= bpow radix2 901 -> 0 <= x * rnd64 (1 / s) <= 1 + uu /\ 0 <= rnd64 (x * rnd64 (1 / s)) <= 1.
Proof.
  intros X Hs. pose proof (bpow_gt_0 radix2 (-900)) as B. pose proof uu_pos as U. assert (S0 : 0 < s) by lra. assert (I0 : 0 < 1 / s) by (apply Rdiv_lt_0_compat; lra).
  assert (I : bpow radix2 (-1022) <= Rabs (1 / s)).
  { rewrite Rabs_pos_eq by lra. apply Rle_trans with (bpow radix2 (-901)); [apply bpow_le; lia|]. change (-901)%Z with (Z.opp 901). rewrite bpow_opp. unfold Rdiv. rewrite Rmult_1_l. apply Rinv_le_contravar; lra. }
  pose proof (rnd_rel_abs _ I) as E. rewrite (Rabs_pos_eq (1 / s)) in E by lra. apply Rabs_le_inv in E. pose proof (rnd_pos _ (Rlt_le _ _ I0)) as P.
  assert (Q : 0 <= x * rnd64 (1 / s) <= 1 + uu).
  { split; [apply Rmult_le_pos; lra|]. apply Rle_trans with (s * rnd64 (1 / s)); [apply Rmult_le_compat_r; lra|].
    apply Rle_trans with (s * (1 / s * (1 + uu))); [apply Rmult_le_compat_l; lra|]. right. field. lra. }
  split; [exact Q|]. split; [apply rnd_pos; lra|]. apply Rle_trans with (rnd64 (1 + uu)); [apply rnd_mono; lra|right; exact rnd_one_up].
Qed.
(** what inverse() returns for one measurement *)
Lemma inverse_one S X : finite (S 0%nat 0%nat) = true -> bpow radix2 (-900) <= val (S 0%nat 0%nat) <= bpow radix2 901 -> inverse64 1 S X ->
  finite (X 0%nat 0%nat) = true /\ val (X 0%nat 0%nat) = rnd64 (1 / val (S 0%nat 0%nat)).
Proof.
  intros FS HS (L & U & pi & Y & ((Pb & _) & HU & _) & Fw & Bw). set (a := S 0%nat 0%nat) in *. pose proof (bpow_gt_0 radix2 (-900)) as B.
  assert (P0 : pi 0%nat = 0%nat) by (specialize (Pb 0%nat ltac:(lia)); lia).
  specialize (HU 0%nat 0%nat ltac:(lia)). unfold lu64_rest in HU. rewrite P0 in HU. cbn [pairs map seq] in HU. fold a in HU.
  destruct (one_sum' a (U 0%nat 0%nat) FS) as [FU VU]; [rewrite Rabs_pos_eq by lra; eapply Rle_trans; [apply HS|apply bpow_le; lia]|exact HU|].
  specialize (Fw 0%nat 0%nat ltac:(lia) ltac:(lia)). rewrite P0 in Fw. cbn [pairs map seq Nat.eqb] in Fw.
  assert (o1 : Rabs 1 <= big) by (rewrite Rabs_R1; change 1 with (bpow radix2 0); apply bpow_le; lia).
  destruct (one_sum' fone (Y 0%nat 0%nat) eq_refl) as [FY VY]; [rewrite (proj2 one_ok); exact o1|exact Fw|]. rewrite (proj2 one_ok) in VY.
  destruct (Bw 0%nat 0%nat ltac:(lia) ltac:(lia)) as (z & Hz & Q). cbn [Nat.sub pairs map seq] in Hz.
  destruct (one_sum' (Y 0%nat 0%nat) z FY) as [Fz Vz]; [rewrite VY; exact o1|exact Hz|]. rewrite VY in Vz.
  set (u := U 0%nat 0%nat) in *. rewrite <- VU in HS |- *.
  assert (u0 : val u <> 0) by lra. assert (iu : Rabs (1 / val u) <= big).
  { rewrite Rabs_pos_eq by (left; apply Rdiv_lt_0_compat; lra). unfold Rdiv. rewrite Rmult_1_l. apply Rle_trans with (bpow radix2 900); [|apply bpow_le; lia].
    replace (bpow radix2 900) with (/ bpow radix2 (-900)) by (rewrite <- bpow_opp; reflexivity). apply Rinv_le_contravar; lra. }
  destruct Q as [-> | ->].
  - destruct (div_ok z u Fz u0) as [F V]; [rewrite Vz; exact iu|]. rewrite Vz in V. split; assumption.
  - destruct (div_ok fone u eq_refl u0) as [F V]; [rewrite (proj2 one_ok); exact iu|]. rewrite (proj2 one_ok) in V.
    destruct (mul_ok z (fdiv64 fone u) Fz F) as [F2 V2]; [rewrite Vz, V, Rmult_1_l; apply rnd_big, iu|]. split; [exact F2|]. rewrite V2, Vz, V, Rmult_1_l. apply rnd_rnd.
Qed.

(** ** C118 *)
(** the measurement is state j itself: the row C (or H) is the unit vector j *)
Definition reads (n j : nat) (C : fmat) : Prop := forall l, (l < n)%nat -> finite (C 0%nat l) = true /\ val (C 0%nat l) = if Nat.eqb l j then 1 else 0.
(** gain and covariance of correct() of KalmanFilter and EKF for one measurement *)
Definition correction1 (n : nat) (C cov Q K cov' : fmat) : Prop := exists S inv,
  innovation_cov n 1 C cov Q S /\ inverse64 1 S inv /\ gain n 1 C cov inv K /\ corrected_cov n 1 C cov K cov'.

Lemma to_big x e : (e <= 1000)%Z -> x <= bpow radix2 e -> x <= big.
Proof. intros H1 H2. eapply Rle_trans; [exact H2|]. apply bpow_le. lia. Qed.
Section Direct.
Variables (n j : nat) (C cov Q K cov' : fmat).
Hypothesis (Hj : (j < n)%nat) (HC : reads n j C).
Hypothesis (Fcov : finite_mat n n cov) (Bcov : forall l, (l < n)%nat -> Rabs (val (cov l j)) <= bpow radix2 900).
Hypothesis (P0 : 0 <= val (cov j j)) (FQ : finite (Q 0%nat 0%nat) = true) (HQ : bpow radix2 (-900) <= val (Q 0%nat 0%nat) <= bpow radix2 900).
Hypothesis Run : correction1 n C cov Q K cov'.

Lemma gain_unit : finite (K j 0%nat) = true /\ 0 <= val (K j 0%nat) <= 1 /\
  val (K j 0%nat) = rnd64 (val (cov j j) * rnd64 (1 / rnd64 (val (Q 0%nat 0%nat) + val (cov j j)))) /\
  exists inv PC : fmat, finite (inv 0%nat 0%nat) = true /\ (forall l, (l < n)%nat -> finite (PC l 0%nat) = true /\ val (PC l 0%nat) = val (cov l j)) /\
  forall i, (i < n)%nat -> sums [(PC i 0%nat, inv 0%nat 0%nat)] (K i 0%nat).
Proof using Hj HC Fcov Bcov P0 FQ HQ Run.
  destruct Run as (S & inv & (PC & HPC & HS) & HI & (PC' & HPC' & HK) & _). clear Run.
  assert (UC : unit_vec n j (fun l => val (C 0%nat l))) by (intros l Hl; apply HC, Hl).
  assert (Pc : forall M, product n n 1 cov (fun i l => C l i) M -> forall l, (l < n)%nat -> finite (M l 0%nat) = true /\ val (M l 0%nat) = val (cov l j)).
  { intros M HM l Hl. apply (unit_sum n j (cov l) (fun q => C 0%nat q)); [exact Hj|exact UC| | |].
    - intros q Hq. split; [apply Fcov; assumption|apply HC, Hq].
    - apply (to_big _ 900); [lia|]. apply Bcov, Hl.
    - apply (HM l 0%nat Hl). lia. }
  pose proof (Pc PC HPC) as HP. pose proof (Pc PC' HPC') as HP'. clear Pc.
  set (p := val (cov j j)) in *. set (q := val (Q 0%nat 0%nat)) in *. pose proof (bpow_gt_0 radix2 (-900)) as B0.
  assert (Pb : p <= bpow radix2 900) by (unfold p; eapply Rle_trans; [apply Rle_abs|apply Bcov, Hj]).
  assert (S1 : finite (S 0%nat 0%nat) = true /\ val (S 0%nat 0%nat) = rnd64 (q + p)).
  { destruct (single_pairs n j (C 0%nat) (fun l => PC l 0%nat) Hj) as (E1 & E2 & E3).
    { intros l Hl D. rewrite (UC l Hl). destruct (Nat.eqb_spec l j); [contradiction|ring]. }
    rewrite (UC j Hj), Nat.eqb_refl, Rmult_1_l, (proj2 (HP j Hj)) in E2, E3. fold p in E2, E3.
    destruct (sums_exact _ _ (HS 0%nat 0%nat ltac:(lia) ltac:(lia))) as [F V].
    - constructor; [split; [reflexivity|exact FQ]|]. apply pairs_Forall. intros l Hl. split; [apply HC, Hl|apply HP, Hl].
    - right. split; [cbn [cnt]; destruct (Req_EM_T _ _); lia|]. constructor; [unfold rep, prod_of; cbn [fst snd]; rewrite (proj2 one_ok), Rmult_1_l; apply fmt_val|].
      apply pairs_Forall. intros l Hl. unfold rep, prod_of. cbn [fst snd]. rewrite (UC l Hl), (proj2 (HP l Hl)). destruct (Nat.eqb l j); [rewrite Rmult_1_l; apply fmt_val|rewrite Rmult_0_l; apply generic_format_0].
    - cbn [mag fst snd]. rewrite E3, (proj2 one_ok), Rmult_1_l. fold q. rewrite !Rabs_pos_eq by lra. apply (to_big _ 901); [lia|]. replace (bpow radix2 901) with (2 * bpow radix2 900); [lra|]. change 901%Z with (1 + 900)%Z. rewrite bpow_plus. reflexivity.
    - split; [exact F|]. rewrite V. cbn [ex fst snd]. rewrite E2, (proj2 one_ok), Rmult_1_l. reflexivity. }
  destruct S1 as [FS VS]. set (s := val (S 0%nat 0%nat)) in *.
  assert (s1 : p <= s) by (rewrite VS; apply rnd_ge_fmt; [apply fmt_val|lra]).
  assert (s2 : bpow radix2 (-900) <= s <= bpow radix2 901).
  { split; [apply Rle_trans with q; [lra|rewrite VS; apply rnd_ge_fmt; [apply fmt_val|lra]]|].
    rewrite VS. apply rnd_le_fmt; [apply generic_format_bpow; unfold SpecFloat.fexp, SpecFloat.emin; lia|]. replace (bpow radix2 901) with (2 * bpow radix2 900); [lra|]. change 901%Z with (1 + 900)%Z. rewrite bpow_plus. reflexivity. }
  destruct (inverse_one S inv FS s2 HI) as [FX VX]. fold s in VX.
  destruct (recip_le p s ltac:(lra) s2) as [R1 R2]. rewrite <- VX in R1, R2.
  destruct (one_sum (PC' j 0%nat) (inv 0%nat 0%nat) (K j 0%nat)) as [FK VK].
  - apply HP', Hj.
  - exact FX.
  - rewrite (proj2 (HP' j Hj)). fold p. rewrite Rabs_pos_eq by lra. apply (to_big _ 1); [lia|]. change (bpow radix2 1) with 2. pose proof uu_val. lra.
  - apply (HK j 0%nat Hj). lia.
  - split; [exact FK|]. rewrite (proj2 (HP' j Hj)) in VK. fold p q in VK. rewrite VK. split; [exact R2|]. split; [rewrite VX, VS; reflexivity|].
    exists inv, PC'. split; [exact FX|]. split; [exact HP'|]. intros i Hi. exact (HK i 0%nat Hi ltac:(lia)).
Qed.
(** the variance of the state that is measured stays non-negative and does not grow *)
Lemma direct_variance : finite (cov' j j) = true /\ 0 <= val (cov' j j) <= val (cov j j) /\
  val (cov' j j) = rnd64 (rnd64 (1 - val (K j 0%nat)) * val (cov j j)).
Proof using Hj HC Fcov Bcov P0 FQ HQ Run.
  destruct gain_unit as (FK & KB & _). destruct Run as (S & inv & _ & _ & _ & (IKC & HI & HP)). clear Run FQ HQ.
  set (k := val (K j 0%nat)) in *.
  assert (I : forall l, (l < n)%nat -> finite (IKC j l) = true /\ val (IKC j l) = if Nat.eqb l j then rnd64 (1 - k) else 0).
  { intros l Hl. specialize (HI j l Hj Hl). cbn [pairs map seq] in HI. destruct (HC l Hl) as [FC VC]. set (d := (if Nat.eqb j l then fone else fzero) : f64) in *.
    assert (Vd : val d = if Nat.eqb l j then 1 else 0) by (unfold d; rewrite (Nat.eqb_sym l j); destruct (Nat.eqb j l); [apply one_ok|reflexivity]).
    assert (Fd : finite d = true) by (unfold d; destruct (Nat.eqb j l); reflexivity).
    destruct (sums_exact _ _ HI) as [F V].
    - constructor; [split; [reflexivity|exact Fd]|]. constructor; [split; [unfold fopp64; cbn [fst]; rewrite is_finite_Bopp; exact FK|exact FC]|constructor].
    - right. split; [cbn [cnt]; destruct (Req_EM_T _ _); destruct (Req_EM_T _ _); lia|]. constructor; [unfold rep, prod_of; cbn [fst snd]; rewrite (proj2 one_ok), Rmult_1_l; apply fmt_val|].
      constructor; [|constructor]. unfold rep, prod_of. cbn [fst snd]. rewrite VC. destruct (Nat.eqb l j); [rewrite Rmult_1_r; apply fmt_val|rewrite Rmult_0_r; apply generic_format_0].
    - cbn [mag fst snd]. rewrite (proj2 one_ok), opp_val, Vd, VC. fold k. apply (to_big _ 1); [lia|]. change (bpow radix2 1) with 2.
      destruct (Nat.eqb l j); rewrite ?Rmult_1_r, ?Rmult_1_l, ?Rmult_0_r, ?Rabs_R0, ?Rabs_R1, ?Rabs_Ropp; [rewrite Rabs_pos_eq by lra|]; lra.
    - split; [exact F|]. rewrite V. cbn [ex fst snd]. rewrite (proj2 one_ok), opp_val, Vd, VC. fold k. destruct (Nat.eqb l j).
      + f_equal. ring.
      + rewrite !Rmult_0_r, !Rplus_0_r. apply rnd_0. }
  assert (r : 0 <= rnd64 (1 - k) <= 1) by (split; [apply rnd_pos; lra|apply rnd_le_fmt; [rewrite <- (proj2 one_ok); apply fmt_val|lra]]).
  set (t := rnd64 (1 - k)) in *. specialize (HP j j Hj Hj).
  destruct (single_pairs n j (IKC j) (fun l => cov l j) Hj) as (E1 & E2 & E3).
  { intros l Hl D. rewrite (proj2 (I l Hl)). destruct (Nat.eqb_spec l j); [contradiction|ring]. }
  rewrite (proj2 (I j Hj)), Nat.eqb_refl in E2, E3. set (p := val (cov j j)) in *.
  assert (tp : 0 <= t * p <= p) by (split; [apply Rmult_le_pos; lra|rewrite <- (Rmult_1_l p) at 2; apply Rmult_le_compat_r; lra]).
  destruct (sums_exact _ _ HP) as [F V].
  - apply pairs_Forall. intros l Hl. split; [apply I, Hl|apply Fcov; assumption].
  - left. exact E1.
  - rewrite E3, Rabs_pos_eq by lra. apply (to_big _ 900); [lia|]. apply Rle_trans with p; [lra|]. unfold p. eapply Rle_trans; [apply Rle_abs|apply Bcov, Hj].
  - split; [exact F|]. rewrite V, E2. split; [|reflexivity]. split; [apply rnd_pos; lra|apply rnd_le_fmt; [apply fmt_val|lra]].
Qed.
(** the state moves towards the measurement and at most to x + (z - x), as doubles compute it *)
Lemma direct_step x z h x' : finite (x j) = true -> finite z = true -> Rabs (val (x j)) <= bpow radix2 900 -> Rabs (val z) <= bpow radix2 900 ->
  finite h = true -> val h = val (x j) -> (exists dx, sums [(K j 0%nat, fsub64 z h)] dx /\ x' = fadd64 (x j) dx) ->
  finite x' = true /\ let t := rnd64 (val (x j) + rnd64 (val z - val (x j))) in Rmin (val (x j)) t <= val x' <= Rmax (val (x j)) t.
Proof using Hj HC Fcov Bcov P0 FQ HQ Run.
  intros Fx Fz Bx Bz Fh Vh (dx & Hd & ->). destruct gain_unit as (FK & KB & _). clear Run FQ HQ P0 Bcov Fcov HC. set (k := val (K j 0%nat)) in *. set (a := val (x j)) in *.
  assert (B : bpow radix2 901 = 2 * bpow radix2 900) by (change 901%Z with (1 + 900)%Z; rewrite bpow_plus; reflexivity).
  assert (B2 : bpow radix2 902 = 2 * bpow radix2 901) by (change 902%Z with (1 + 901)%Z; rewrite bpow_plus; reflexivity).
  assert (Bd : Rabs (val z - a) <= bpow radix2 901) by (unfold Rminus; eapply Rle_trans; [apply Rabs_triang|rewrite Rabs_Ropp; lra]).
  destruct (sub_ok z h Fz Fh) as [Fd Vd]; [rewrite Vh; apply (to_big _ 901); [lia|exact Bd]|]. rewrite Vh in Vd. set (d := val (fsub64 z h)) in *.
  assert (Bd2 : Rabs d <= bpow radix2 901) by (rewrite Vd, rnd_abs; apply rnd_le_fmt; [apply generic_format_bpow; unfold SpecFloat.fexp, SpecFloat.emin; lia|exact Bd]).
  assert (kd : Rabs (k * d) <= Rabs d) by (rewrite Rabs_mult, (Rabs_pos_eq k) by lra; rewrite <- (Rmult_1_l (Rabs d)) at 2; apply Rmult_le_compat_r; [apply Rabs_pos|lra]).
  destruct (one_sum (K j 0%nat) (fsub64 z h) dx FK Fd) as [Fdx Vdx]; [fold k d; apply (to_big _ 901); [lia|lra]|exact Hd|]. fold k d in Vdx.
  assert (Sgn : Rmin 0 d <= val dx <= Rmax 0 d).
  { rewrite Vdx. destruct (Rle_dec 0 d) as [D|D].
    - rewrite Rmin_left, Rmax_right by lra. split; [apply rnd_pos; apply Rmult_le_pos; lra|]. apply rnd_le_fmt; [apply fmt_val|]. rewrite <- (Rmult_1_l d) at 2. apply Rmult_le_compat_r; lra.
    - rewrite Rmin_right, Rmax_left by lra. split.
      + apply rnd_ge_fmt; [apply fmt_val|]. assert (0 <= (1 - k) * - d) by (apply Rmult_le_pos; lra). lra.
      + apply rnd_le_fmt; [apply generic_format_0|]. assert (0 <= k * - d) by (apply Rmult_le_pos; lra). lra. }
  assert (Bdx : Rabs (val dx) <= bpow radix2 901).
  { apply Rle_trans with (Rabs d); [|exact Bd2]. unfold Rmin, Rmax in Sgn. unfold Rabs. destruct (Rle_dec 0 d), (Rcase_abs (val dx)), (Rcase_abs d); lra. }
  destruct (add_ok (x j) dx Fx Fdx) as [Fa Va]; [fold a; apply (to_big _ 902); [lia|]; pose proof (bpow_gt_0 radix2 900); eapply Rle_trans; [apply Rabs_triang|lra]|]. fold a in Va.
  split; [exact Fa|]. cbv zeta. rewrite Va, <- Vd. assert (ra : rnd64 a = a) by (apply rnd_id, fmt_val).
  unfold Rmin, Rmax in Sgn. destruct (Rle_dec 0 d) as [D|D].
  - split.
    + eapply Rle_trans; [apply Rmin_l|]. rewrite <- ra at 1. apply rnd_mono. lra.
    + eapply Rle_trans; [|apply Rmax_r]. apply rnd_mono. lra.
  - split.
    + eapply Rle_trans; [apply Rmin_r|]. apply rnd_mono. lra.
    + eapply Rle_trans; [|apply Rmax_l]. rewrite <- ra at 2. apply rnd_mono. lra.
Qed.
End Direct.

(** what a correction with one direct measurement is applied to: sizes up to 2^900, a noise that is not vanishing *)
Definition direct_input (n j : nat) (C cov Q : fmat) : Prop := (j < n)%nat /\ reads n j C /\ finite_mat n n cov /\
  (forall l, (l < n)%nat -> Rabs (val (cov l j)) <= bpow radix2 900) /\ 0 <= val (cov j j) /\
  finite (Q 0%nat 0%nat) = true /\ bpow radix2 (-900) <= val (Q 0%nat 0%nat) <= bpow radix2 900.
(** C118 (covariance, KalmanFilter and EKF): the variance of the state that is measured stays between 0 and what it was *)
Theorem C118_variance n j C cov Q K cov' : direct_input n j C cov Q -> correction1 n C cov Q K cov' ->
  finite (cov' j j) = true /\ 0 <= val (cov' j j) <= val (cov j j).
Proof. intros (H1 & H2 & H3 & H4 & H5 & H6 & H7). intros R. destruct (direct_variance n j C cov Q K cov' H1 H2 H3 H4 H5 H6 H7 R) as (F & B & _). split; assumption. Qed.
(** C118 (gain): it is between 0 and 1, so no part of the innovation is taken twice *)
Theorem C118_gain n j C cov Q K cov' : direct_input n j C cov Q -> correction1 n C cov Q K cov' -> finite (K j 0%nat) = true /\ 0 <= val (K j 0%nat) <= 1.
Proof. intros (H1 & H2 & H3 & H4 & H5 & H6 & H7). intros R. destruct (gain_unit n j C cov Q K cov' H1 H2 H3 H4 H5 H6 H7 R) as (F & B & _). split; assumption. Qed.
(** C118 (state, EKF): h(x) is the state that is measured; the new value lies between the old one and x + (z - x) *)
Theorem C118_state_ekf n j C cov Q K cov' (x z h x' : fvec) : direct_input n j C cov Q -> correction1 n C cov Q K cov' ->
  ekf_corrected_state n 1 K x z h x' -> finite (x j) = true -> finite (z 0%nat) = true -> Rabs (val (x j)) <= bpow radix2 900 -> Rabs (val (z 0%nat)) <= bpow radix2 900 -> h 0%nat = x j ->
  finite (x' j) = true /\ let t := rnd64 (val (x j) + rnd64 (val (z 0%nat) - val (x j))) in Rmin (val (x j)) t <= val (x' j) <= Rmax (val (x j)) t.
Proof.
  intros (H1 & H2 & H3 & H4 & H5 & H6 & H7) Run (dz & dx & Hz & Hx) Fx Fz Bx Bz Eh. specialize (Hz 0%nat ltac:(lia)). destruct (Hx j H1) as [S E]. cbn [pairs map seq] in S. rewrite Hz, Eh in S.
  apply (direct_step n j C cov Q K cov' H1 H2 H3 H4 H5 H6 H7 Run x (z 0%nat) (x j) (x' j) Fx Fz Bx Bz Fx eq_refl). exists (dx j). split; [exact S|exact E].
Qed.
(** C118 (state, KalmanFilter): the prediction of the measurement is C * x *)
Theorem C118_state_kf n j C cov Q K cov' (x z x' : fvec) : direct_input n j C cov Q -> correction1 n C cov Q K cov' ->
  corrected_state n 1 C K x z x' -> (forall l, (l < n)%nat -> finite (x l) = true) -> finite (z 0%nat) = true -> Rabs (val (x j)) <= bpow radix2 900 -> Rabs (val (z 0%nat)) <= bpow radix2 900 ->
  finite (x' j) = true /\ let t := rnd64 (val (x j) + rnd64 (val (z 0%nat) - val (x j))) in Rmin (val (x j)) t <= val (x' j) <= Rmax (val (x j)) t.
Proof.
  intros (H1 & H2 & H3 & H4 & H5 & H6 & H7) Run (zp & dz & dx & Hz & Hx) Fx Fz Bx Bz. destruct (Hz 0%nat ltac:(lia)) as [Sz Ez]. destruct (Hx j H1) as [S E]. cbn [pairs map seq] in S. rewrite Ez in S.
  assert (P : finite (zp 0%nat) = true /\ val (zp 0%nat) = val (x j)).
  { assert (W := fun l (Hl : (l < n)%nat) => proj1 (H2 l Hl)). destruct (single_pairs n j (C 0%nat) x H1) as (E1 & E2 & E3).
    { intros l Hl D. rewrite (proj2 (H2 l Hl)). destruct (Nat.eqb_spec l j); [contradiction|ring]. }
    rewrite (proj2 (H2 j H1)), Nat.eqb_refl, Rmult_1_l in E2, E3.
    destruct (sums_exact _ _ Sz) as [F V]; [apply pairs_Forall; intros l Hl; split; [apply W, Hl|apply Fx, Hl]|left; exact E1|rewrite E3; apply (to_big _ 900); [lia|exact Bx]|].
    split; [exact F|]. rewrite V, E2. apply rnd_id, fmt_val. }
  apply (direct_step n j C cov Q K cov' H1 H2 H3 H4 H5 H6 H7 Run x (z 0%nat) (zp 0%nat) (x' j) (Fx j H1) Fz Bx Bz (proj1 P) (proj2 P)). exists (dx j). split; [exact S|exact E].
Qed.

(** ** How accurate the new variance is *)
Lemma direct_real p q : 0 <= p <= bpow radix2 900 -> bpow radix2 (-900) <= q <= bpow radix2 900 ->
  let k := rnd64 (p * rnd64 (1 / rnd64 (q + p))) in Rabs (rnd64 (rnd64 (1 - k) * p) - p * q / (p + q)) <= bpow radix2 (-50) * p + tiny.
Proof.
  intros Hp Hq. cbv zeta. pose proof uu_pos as U. pose proof uu_val as UV. pose proof tiny_pos as T. pose proof (bpow_gt_0 radix2 (-900)) as B0.
  assert (tu : 1000 * tiny <= uu). { unfold tiny, uu. change (-1075)%Z with (-1022 + -53)%Z. rewrite bpow_plus, <- Rmult_assoc. rewrite <- (Rmult_1_l (bpow radix2 (-53))) at 2. apply Rmult_le_compat_r; [apply bpow_ge_0|].
    apply Rle_trans with (bpow radix2 10 * bpow radix2 (-1022)); [apply Rmult_le_compat_r; [apply bpow_ge_0|change (bpow radix2 10) with 1024; lra]|]. rewrite <- bpow_plus. change 1 with (bpow radix2 0). apply bpow_le. lia. }
  set (t := q + p). assert (t0 : bpow radix2 (-900) <= t) by (unfold t; lra).
  assert (Bt : bpow radix2 901 = 2 * bpow radix2 900) by (change 901%Z with (1 + 900)%Z; rewrite bpow_plus; reflexivity).
  assert (n1 : forall x, bpow radix2 (-902) <= x -> bpow radix2 (-1022) <= x) by (intros x Hx; eapply Rle_trans; [|exact Hx]; apply bpow_le; lia).
  assert (b902 : bpow radix2 (-900) = 4 * bpow radix2 (-902)) by (change (-900)%Z with (2 + -902)%Z; rewrite bpow_plus; reflexivity).
  pose proof (bpow_gt_0 radix2 (-902)) as B2.
  destruct (rnd_rel t) as [S1 S2]; [apply n1; lra|]. set (s := rnd64 t) in *.
  assert (s0 : 0 < s) by (assert (t * / 2 <= t * (1 - uu)) by (apply Rmult_le_compat_l; lra); lra).
  assert (s3 : s <= bpow radix2 902).
  { assert (t * (1 + uu) <= t * 2) by (apply Rmult_le_compat_l; lra). assert (B3 : bpow radix2 902 = 2 * bpow radix2 901) by (change 902%Z with (1 + 901)%Z; rewrite bpow_plus; reflexivity). unfold t in *. lra. }
  destruct (rnd_rel (1 / s)) as [R1 R2].
  { apply n1. unfold Rdiv. rewrite Rmult_1_l. change (-902)%Z with (Z.opp 902). rewrite bpow_opp. apply Rinv_le_contravar; assumption. }
  set (r := rnd64 (1 / s)) in *. set (e := p / t).
  assert (e0 : 0 <= e <= 1). { unfold e. split; [apply Rmult_le_pos; [lra|left; apply Rinv_0_lt_compat; lra]|]. apply (Rmult_le_reg_r t); [lra|]. unfold Rdiv. rewrite Rmult_assoc, Rinv_l by lra. unfold t. lra. }
  assert (is0 : 0 < / s) by (apply Rinv_0_lt_compat; exact s0).
  (* p r is p / t up to 3 u *)
  assert (P1 : p * r <= e + 3 * uu).
  { apply Rle_trans with (p * (1 / s * (1 + uu))); [apply Rmult_le_compat_l; lra|]. apply (Rmult_le_reg_r s); [exact s0|].
    replace (p * (1 / s * (1 + uu)) * s) with (e * t * (1 + uu)) by (unfold e; field; lra).
    apply Rle_trans with ((e + 3 * uu) * (t * (1 - uu))); [|apply Rmult_le_compat_l; lra].
    replace ((e + 3 * uu) * (t * (1 - uu)) - e * t * (1 + uu)) with (t * (uu * (3 - 3 * uu - 2 * e))) by ring || idtac.
    assert (0 <= t * (uu * (3 - 3 * uu - 2 * e))) by (apply Rmult_le_pos; [lra|apply Rmult_le_pos; lra]). lra. }
  assert (P2 : e - 2 * uu <= p * r).
  { apply Rle_trans with (p * (1 / s * (1 - uu))); [|apply Rmult_le_compat_l; lra]. apply (Rmult_le_reg_r s); [exact s0|].
    replace (p * (1 / s * (1 - uu)) * s) with (e * t * (1 - uu)) by (unfold e; field; lra).
    destruct (Rle_dec (e - 2 * uu) 0) as [N|N].
    - apply Rle_trans with 0; [assert (0 <= - (e - 2 * uu) * s) by (apply Rmult_le_pos; lra); lra|]. apply Rmult_le_pos; [apply Rmult_le_pos; lra|lra].
    - apply Rle_trans with ((e - 2 * uu) * (t * (1 + uu))); [apply Rmult_le_compat_l; lra|].
      assert (0 <= t * (uu * (2 + 2 * uu - 2 * e))) by (apply Rmult_le_pos; [lra|apply Rmult_le_pos; lra]). lra. }
  pose proof (rnd_err (p * r)) as K1. set (k := rnd64 (p * r)) in *.
  assert (A1 : Rabs (p * r) <= 2) by (apply Rabs_le; lra). assert (A1' : uu * Rabs (p * r) <= uu * (1 + 3 * uu)) by (apply Rmult_le_compat_l; [lra|apply Rabs_le; lra]).
  apply Rabs_le_inv in K1. assert (K2 : e - 5 * uu <= k <= e + 5 * uu) by nra.
  pose proof (rnd_err (1 - k)) as T1. set (v := rnd64 (1 - k)) in *. assert (A2 : uu * Rabs (1 - k) <= uu * (1 + 5 * uu)) by (apply Rmult_le_compat_l; [lra|apply Rabs_le; lra]).
  apply Rabs_le_inv in T1. assert (T2 : (1 - e) - 13 / 2 * uu <= v <= (1 - e) + 13 / 2 * uu) by nra.
  pose proof (rnd_err (v * p)) as V1. rewrite Rabs_mult, (Rabs_pos_eq p) in V1 by lra.
  assert (A3 : uu * (Rabs v * p) <= uu * ((1 + 7 * uu) * p)) by (apply Rmult_le_compat_l; [lra|]; apply Rmult_le_compat_r; [lra|apply Rabs_le; lra]).
  replace (p * q / (p + q)) with ((1 - e) * p) by (unfold e, t; field; unfold t in t0; lra).
  assert (D : Rabs (v * p - (1 - e) * p) <= 13 / 2 * uu * p). { replace (v * p - (1 - e) * p) with ((v - (1 - e)) * p) by ring. rewrite Rabs_mult, (Rabs_pos_eq p) by lra. apply Rmult_le_compat_r; [lra|]. apply Rabs_le. lra. }
  replace (rnd64 (v * p) - (1 - e) * p) with ((rnd64 (v * p) - v * p) + (v * p - (1 - e) * p)) by ring. eapply Rle_trans; [apply Rabs_triang|].
  assert (b50 : bpow radix2 (-50) = 8 * uu) by (unfold uu; change (-50)%Z with (3 + -53)%Z; rewrite bpow_plus; reflexivity). rewrite b50.
  assert (0 <= uu * p) by (apply Rmult_le_pos; lra). assert (7 * uu * (uu * p) <= / 4 * (uu * p)) by (apply Rmult_le_compat_r; lra). lra.
Qed.
(** C118 (accuracy): with old variance p and noise q the new variance is p q / (p + q), up to 2^-50 of the old one *)
Theorem C118_accuracy n j C cov Q K cov' : direct_input n j C cov Q -> correction1 n C cov Q K cov' ->
  let p := val (cov j j) in let q := val (Q 0%nat 0%nat) in Rabs (val (cov' j j) - p * q / (p + q)) <= bpow radix2 (-50) * p + bpow radix2 (-1075).
Proof.
  intros (H1 & H2 & H3 & H4 & H5 & H6 & H7) R. destruct (direct_variance n j C cov Q K cov' H1 H2 H3 H4 H5 H6 H7 R) as (_ & _ & ->).
  destruct (gain_unit n j C cov Q K cov' H1 H2 H3 H4 H5 H6 H7 R) as (_ & _ & -> & _). cbv zeta. apply direct_real; [|exact H7]. split; [exact H5|]. eapply Rle_trans; [apply Rle_abs|apply H4, H1].
Qed.
(** so it is at most the noise, up to that *)
Theorem C118_noise n j C cov Q K cov' : direct_input n j C cov Q -> correction1 n C cov Q K cov' ->
  val (cov' j j) <= val (Q 0%nat 0%nat) + bpow radix2 (-50) * val (cov j j) + bpow radix2 (-1075).
Proof.
  intros H R. pose proof (C118_accuracy n j C cov Q K cov' H R) as A. cbv zeta in A. destruct H as (H1 & H2 & H3 & H4 & H5 & H6 & H7). set (p := val (cov j j)) in *. set (q := val (Q 0%nat 0%nat)) in *.
  pose proof (bpow_gt_0 radix2 (-900)). apply Rabs_le_inv in A. assert (p * q / (p + q) <= q); [|lra].
  apply (Rmult_le_reg_r (p + q)); [lra|]. unfold Rdiv. rewrite Rmult_assoc, Rinv_l by lra. assert (0 <= q * q) by (apply Rmult_le_pos; lra). lra.
Qed.

(** ** Any history of a filter with one state *)
Lemma sums_sign (up : bool) l y : sums l y -> finite y = true -> Forall (fun p => if up then 0 <= prod_of p else prod_of p <= 0) l -> if up then 0 <= val y else val y <= 0.
Proof.
  assert (R : forall x, (if up then 0 <= x else x <= 0) -> if up then 0 <= rnd64 x else rnd64 x <= 0).
  { intros x Hx. destruct up; [apply rnd_pos, Hx|]. apply rnd_le_fmt; [apply generic_format_0|exact Hx]. }
  assert (P : forall x z, (if up then 0 <= x else x <= 0) -> (if up then 0 <= z else z <= 0) -> if up then 0 <= x + z else x + z <= 0) by (intros; destruct up; lra).
  induction 1 as [|a|a b|a b l c H IH|l l' c c' H IH H' IH'|l l' c Hp H IH]; intros F S.
  - destruct up; apply Rle_refl.
  - inversion S as [|? ? S1 _]; subst. unfold prod_of in S1. cbn [fst snd] in S1. rewrite (proj2 one_ok), Rmult_1_l in S1. exact S1.
  - inversion S as [|? ? S1 _]; subst. destruct (mul_inv _ _ F) as (_ & _ & ->). apply R, S1.
  - inversion S as [|? ? S1 S2]; subst. destruct (fma_inv _ _ _ F) as (_ & _ & Fc & ->). apply R, P; [exact S1|apply IH; assumption].
  - apply Forall_app in S as [S1 S2]. destruct (add_inv _ _ F) as (Fa & Fb & ->). apply R, P; [apply IH; assumption|apply IH'; assumption].
  - apply IH; [exact F|]. eapply Permutation_Forall; [apply Permutation_sym, Hp|exact S].
Qed.
(** no term of the double sum [row * R * row'] is negative *)
Definition no_cancellation (p : nat) (row : fvec) (R : fmat) : Prop := forall k l, (k < p)%nat -> (l < p)%nat -> 0 <= val (row k) * val (R k l) * val (row l).
Lemma sign_term n p Pn R PR i : product n p p Pn R PR -> (i < n)%nat -> no_cancellation p (Pn i) R -> (forall k, (k < p)%nat -> finite (PR i k) = true) ->
  Forall (fun t => 0 <= prod_of t) (pairs p (PR i) (Pn i)).
Proof.
  intros H Hi N F. apply pairs_Forall. intros k Hk. unfold prod_of. cbn [fst snd]. specialize (H i k Hi Hk). specialize (F k Hk). set (y := PR i k) in *. set (u := Pn i k).
  assert (T : forall up : bool, (if up then 0 < val u else val u < 0) -> if up then 0 <= val y else val y <= 0).
  { intros up Hu. apply (sums_sign up _ _ H F). apply pairs_Forall. intros l Hl. unfold prod_of. cbn [fst snd]. specialize (N l k Hl Hk). fold u in N. set (x := val (Pn i l) * val (R l k)) in *. destruct up.
    - apply (Rmult_le_reg_r (val u)); [exact Hu|]. rewrite Rmult_0_l. exact N.
    - apply Ropp_le_cancel. rewrite Ropp_0. apply (Rmult_le_reg_r (- val u)); [lra|]. lra. }
  destruct (Rtotal_order (val u) 0) as [U|[U|U]].
  - specialize (T false U). cbv iota in T. assert (0 <= - val y * - val u) by (apply Rmult_le_pos; lra). lra.
  - rewrite U, Rmult_0_r. apply Rle_refl.
  - specialize (T true U). cbv iota in T. apply Rmult_le_pos; lra.
Qed.
(** C109 (sign): a predicted variance none of whose terms is negative is not negative *)
Theorem C109_sign_partial n p m A cov Pn Rp V Rc cov' i : predicted_cov n p m A cov Pn Rp V Rc cov' -> (i < n)%nat ->
  no_cancellation n (A i) cov -> no_cancellation p (Pn i) Rp -> no_cancellation m (V i) Rc -> finite (cov' i i) = true -> 0 <= val (cov' i i).
Proof.
  intros (AP & PR & VR & HA & HP & HV & H) Hi Na Np Nm F. specialize (H i i Hi Hi).
  destruct (sums_error _ _ H F) as [Fa _]. unfold all_finite in Fa. rewrite !Forall_app in Fa. destruct Fa as (Fa & Fp & Fv).
  assert (G : forall q (X Y : nat -> f64), Forall (fun t => finite (fst t) = true /\ finite (snd t) = true) (pairs q X Y) -> forall k, (k < q)%nat -> finite (X k) = true).
  { intros q X Y HF k Hk. unfold pairs in HF. rewrite Forall_map, Forall_forall in HF. destruct (HF k) as [E _]; [apply in_seq; lia|exact E]. }
  apply (sums_sign true _ _ H F). rewrite !Forall_app. split; [|split].
  - apply (sign_term n n A cov AP i HA Hi Na). apply (G _ _ _ Fa).
  - apply (sign_term n p Pn Rp PR i HP Hi Np). apply (G _ _ _ Fp).
  - apply (sign_term n m V Rc VR i HV Hi Nm). apply (G _ _ _ Fv).
Qed.
(** independent components with non-negative variances *)
Definition independent_noise (p : nat) (R : fmat) : Prop := forall i k, (i < p)%nat -> (k < p)%nat -> if Nat.eqb i k then 0 <= val (R i k) else val (R i k) = 0.
Lemma independent_ok p row R : independent_noise p R -> no_cancellation p row R.
Proof.
  intros N k l Hk Hl. specialize (N k l Hk Hl). destruct (Nat.eqb_spec k l) as [E|D].
  - rewrite E in N |- *. replace (val (row l) * val (R l l) * val (row l)) with (val (R l l) * (val (row l) * val (row l))) by ring. apply Rmult_le_pos; [exact N|apply Rle_0_sqr].
  - rewrite N, Rmult_0_r, Rmult_0_l. apply Rle_refl.
Qed.
(** so a prediction from independent states with independent noises has no negative variance *)
Theorem C109_independent_partial n p m A cov Pn Rp V Rc cov' i : predicted_cov n p m A cov Pn Rp V Rc cov' -> (i < n)%nat ->
  independent_noise n cov -> independent_noise p Rp -> independent_noise m Rc -> finite (cov' i i) = true -> 0 <= val (cov' i i).
Proof. intros H Hi N1 N2 N3. apply (C109_sign_partial n p m A cov Pn Rp V Rc cov' i H Hi); apply independent_ok; assumption. Qed.
(** every column has at most one entry that is not 0: each old state (each noise) reaches one new state *)
Definition separate (n p : nat) (M : fmat) : Prop := forall i j k, (i < n)%nat -> (j < n)%nat -> (k < p)%nat -> i <> j -> val (M i k) = 0 \/ val (M j k) = 0.
Lemma sums_zero l y : sums l y -> finite y = true -> Forall (fun p => prod_of p = 0) l -> val y = 0.
Proof.
  intros H F Z. apply Rle_antisym.
  - apply (sums_sign false l y H F). eapply Forall_impl; [|exact Z]. intros p E. cbv beta in E |- *. rewrite E. apply Rle_refl.
  - apply (sums_sign true l y H F). eapply Forall_impl; [|exact Z]. intros p E. cbv beta in E |- *. rewrite E. apply Rle_refl.
Qed.
Lemma separate_term n p Pn R PR i j : product n p p Pn R PR -> (i < n)%nat -> (j < n)%nat -> i <> j -> separate n p Pn -> independent_noise p R ->
  (forall k, (k < p)%nat -> finite (PR i k) = true) -> Forall (fun t => prod_of t = 0) (pairs p (PR i) (Pn j)).
Proof.
  intros H Hi Hj D Sp N F. apply pairs_Forall. intros k Hk. unfold prod_of. cbn [fst snd]. destruct (Sp i j k Hi Hj Hk D) as [E|E]; [|rewrite E; apply Rmult_0_r].
  replace (val (PR i k)) with 0; [apply Rmult_0_l|]. symmetry. apply (sums_zero _ _ (H i k Hi Hk) (F k Hk)). apply pairs_Forall. intros l Hl. unfold prod_of. cbn [fst snd].
  specialize (N l k Hl Hk). destruct (Nat.eqb_spec l k) as [El|Dl]; [rewrite El, E; apply Rmult_0_l|rewrite N; apply Rmult_0_r].
Qed.
Definition all_fin (t : f64 * f64) : Prop := finite (fst t) = true /\ finite (snd t) = true.
Lemma pairs_fin q X Y : Forall all_fin (pairs q X Y) -> forall k, (k < q)%nat -> finite (X k) = true /\ finite (Y k) = true.
Proof. intros HF k Hk. unfold pairs in HF. rewrite Forall_map, Forall_forall in HF. apply (HF k). apply in_seq. lia. Qed.
(** predict keeps independent states independent *)
Lemma predict_independent n p m A cov Pn Rp V Rc cov' : predicted_cov n p m A cov Pn Rp V Rc cov' ->
  separate n n A -> separate n p Pn -> separate n m V -> independent_noise n cov -> independent_noise p Rp -> independent_noise m Rc ->
  (forall i, (i < n)%nat -> finite (cov' i i) = true) -> finite_mat n n cov' /\ independent_noise n cov'.
Proof.
  intros H0 SA SP SV NC NP NV F. assert (D : forall i, (i < n)%nat -> 0 <= val (cov' i i)) by (intros i Hi; apply (C109_independent_partial n p m A cov Pn Rp V Rc cov' i H0 Hi NC NP NV (F i Hi))).
  destruct H0 as (AP & PR & VR & HA & HP & HV & H).
  assert (G : forall i, (i < n)%nat -> Forall all_fin (pairs n (AP i) (A i)) /\ Forall all_fin (pairs p (PR i) (Pn i)) /\ Forall all_fin (pairs m (VR i) (V i))).
  { intros i Hi. destruct (sums_error _ _ (H i i Hi Hi) (F i Hi)) as [Fa _]. unfold all_finite in Fa. rewrite !Forall_app in Fa. exact Fa. }
  assert (O : forall i j, (i < n)%nat -> (j < n)%nat -> i <> j -> finite (cov' i j) = true /\ val (cov' i j) = 0).
  { intros i j Hi Hj Dij. destruct (G i Hi) as (G1 & G2 & G3). destruct (G j Hj) as (G4 & G5 & G6).
    assert (Z : Forall (fun t => prod_of t = 0) (pairs n (AP i) (A j) ++ pairs p (PR i) (Pn j) ++ pairs m (VR i) (V j))).
    { rewrite !Forall_app. split; [|split].
      - apply (separate_term n n A cov AP i j HA Hi Hj Dij SA NC). intros k Hk. apply (pairs_fin _ _ _ G1 k Hk).
      - apply (separate_term n p Pn Rp PR i j HP Hi Hj Dij SP NP). intros k Hk. apply (pairs_fin _ _ _ G2 k Hk).
      - apply (separate_term n m V Rc VR i j HV Hi Hj Dij SV NV). intros k Hk. apply (pairs_fin _ _ _ G3 k Hk). }
    assert (M : mag (pairs n (AP i) (A j) ++ pairs p (PR i) (Pn j) ++ pairs m (VR i) (V j)) = 0 /\ cnt (pairs n (AP i) (A j) ++ pairs p (PR i) (Pn j) ++ pairs m (VR i) (V j)) = 0%nat).
    { revert Z. generalize (pairs n (AP i) (A j) ++ pairs p (PR i) (Pn j) ++ pairs m (VR i) (V j)). intros l Z. induction Z as [|t l E Z IH]; [split; reflexivity|]. destruct IH as [IH1 IH2]. cbn [mag cnt].
      rewrite IH1, IH2. unfold prod_of in E |- *. rewrite E, Rabs_R0. split; [ring|]. destruct (Req_EM_T 0 0); [reflexivity|congruence]. }
    destruct M as [M1 M2]. destruct (sums_exact _ _ (H i j Hi Hj)) as [Fy Vy].
    - unfold all_finite. rewrite !Forall_app. split; [|split]; apply pairs_Forall; intros k Hk; cbn [fst snd]; split;
        [apply (pairs_fin _ _ _ G1 k Hk)|apply (pairs_fin _ _ _ G4 k Hk)|apply (pairs_fin _ _ _ G2 k Hk)|apply (pairs_fin _ _ _ G5 k Hk)|apply (pairs_fin _ _ _ G3 k Hk)|apply (pairs_fin _ _ _ G6 k Hk)].
    - left. rewrite M2. lia.
    - rewrite M1. apply bpow_ge_0.
    - split; [exact Fy|]. apply (sums_zero _ _ (H i j Hi Hj) Fy Z). }
  split.
  - intros i j Hi Hj. destruct (Nat.eq_dec i j) as [->|Dij]; [apply F, Hj|apply (O i j Hi Hj Dij)].
  - intros i j Hi Hj. destruct (Nat.eqb_spec i j) as [->|Dij]; [apply D, Hj|apply (O i j Hi Hj Dij)].
Qed.
(** C118 (independent states): a direct measurement of one of them leaves all others as they are *)
Theorem C118_independent n j C cov Q K cov' : direct_input n j C cov Q -> independent_noise n cov -> (forall i, (i < n)%nat -> val (cov i i) <= bpow radix2 900) ->
  correction1 n C cov Q K cov' ->
  finite_mat n n cov' /\ independent_noise n cov' /\ (forall i, (i < n)%nat -> i <> j -> val (cov' i i) = val (cov i i) /\ finite (K i 0%nat) = true /\ val (K i 0%nat) = 0).
Proof.
  intros DI N B Run. destruct (C118_variance n j C cov Q K cov' DI Run) as [F1 B1]. destruct DI as (Hj & HC & Fc & Bc & P0 & FQ & HQ).
  destruct (gain_unit n j C cov Q K cov' Hj HC Fc Bc P0 FQ HQ Run) as (FK & KB & _ & inv & PC & FI & HPC & HK).
  assert (UC : unit_vec n j (fun l => val (C 0%nat l))) by (intros l Hl; apply HC, Hl).
  assert (o1 : Rabs 1 <= big) by (rewrite Rabs_R1; change 1 with (bpow radix2 0); apply bpow_le; lia).
  assert (K0 : forall i, (i < n)%nat -> i <> j -> finite (K i 0%nat) = true /\ val (K i 0%nat) = 0).
  { intros i Hi D. destruct (HPC i Hi) as [FP VP].
    specialize (N i j Hi Hj). destruct (Nat.eqb_spec i j) as [E|_]; [contradiction|]. rewrite N in VP.
    destruct (one_sum _ _ _ FP FI ltac:(rewrite VP, Rmult_0_l, Rabs_R0; apply bpow_ge_0) (HK i Hi)) as [F V]. split; [exact F|]. rewrite V, VP, Rmult_0_l. apply rnd_0. }
  destruct Run as (S & inv' & _ & _ & _ & (IKC & HI & HP)).
  assert (I : forall i l, (i < n)%nat -> (l < n)%nat -> finite (IKC i l) = true /\ (i <> l -> val (IKC i l) = 0) /\ (i = l -> i <> j -> val (IKC i l) = 1)  /\ Rabs (val (IKC i l)) <= 1).
  { intros i l Hi Hl. specialize (HI i l Hi Hl). cbn [pairs map seq] in HI. destruct (HC l Hl) as [FC VC].
    assert (Kf : finite (K i 0%nat) = true) by (destruct (Nat.eq_dec i j) as [->|D]; [exact FK|apply (K0 i Hi D)]).
    set (d := (if Nat.eqb i l then fone else fzero) : f64) in *. assert (Fd : finite d = true) by (unfold d; destruct (Nat.eqb i l); reflexivity).
    assert (Vd : val d = if Nat.eqb i l then 1 else 0) by (unfold d; destruct (Nat.eqb i l); [apply one_ok|reflexivity]).
    assert (Kv : i <> j \/ l <> j -> val (K i 0%nat) * val (C 0%nat l) = 0).
    { intros [D|D]; [rewrite (proj2 (K0 i Hi D)); apply Rmult_0_l|]. rewrite VC. destruct (Nat.eqb_spec l j); [contradiction|apply Rmult_0_r]. }
    assert (Kb : Rabs (val (K i 0%nat) * val (C 0%nat l)) <= 1).
    { destruct (Nat.eq_dec i j) as [->|D]; [|rewrite Kv by (left; exact D); rewrite Rabs_R0; lra]. destruct (Nat.eq_dec l j) as [->|D]; [|rewrite Kv by (right; exact D); rewrite Rabs_R0; lra].
      rewrite VC, Nat.eqb_refl, Rmult_1_r, Rabs_pos_eq; lra. }
    destruct (sums_exact _ _ HI) as [F V].
    - constructor; [split; [reflexivity|exact Fd]|]. constructor; [split; [unfold fopp64; cbn [fst]; rewrite is_finite_Bopp; exact Kf|exact FC]|constructor].
    - right. split; [cbn [cnt]; destruct (Req_EM_T _ _); destruct (Req_EM_T _ _); lia|]. constructor; [unfold rep, prod_of; cbn [fst snd]; rewrite (proj2 one_ok), Rmult_1_l; apply fmt_val|].
      constructor; [|constructor]. unfold rep, prod_of. cbn [fst snd]. rewrite VC. destruct (Nat.eqb l j); [rewrite Rmult_1_r; apply fmt_val|rewrite Rmult_0_r; apply generic_format_0].
    - cbn [mag fst snd]. rewrite (proj2 one_ok), opp_val, Vd, Rmult_1_l, Rplus_0_r. replace (- val (K i 0%nat) * val (C 0%nat l)) with (- (val (K i 0%nat) * val (C 0%nat l))) by ring. rewrite Rabs_Ropp.
      apply (to_big _ 1); [lia|]. change (bpow radix2 1) with 2. assert (Rabs (if Nat.eqb i l then 1 else 0) <= 1) by (destruct (Nat.eqb i l); [rewrite Rabs_R1|rewrite Rabs_R0]; lra). lra.
    - cbn [ex fst snd] in V. rewrite (proj2 one_ok), opp_val, Vd, Rmult_1_l, Rplus_0_r in V. replace (- val (K i 0%nat) * val (C 0%nat l)) with (- (val (K i 0%nat) * val (C 0%nat l))) in V by ring.
      split; [exact F|]. split; [|split].
      + intros D. rewrite V. destruct (Nat.eqb_spec i l); [contradiction|]. rewrite Kv by (destruct (Nat.eq_dec i j); [right; congruence|left; assumption]). rewrite Ropp_0, Rplus_0_r. apply rnd_0.
      + intros El D. rewrite V, (Kv (or_introl D)), Ropp_0, Rplus_0_r. destruct (Nat.eqb_spec i l); [|contradiction]. apply rnd_id. rewrite <- (proj2 one_ok). apply fmt_val.
      + rewrite V, rnd_abs. apply rnd_le_fmt; [rewrite <- (proj2 one_ok); apply fmt_val|]. destruct (Nat.eqb_spec i l) as [El|D].
        * destruct (Nat.eq_dec i j) as [Ej|D]; [|rewrite Kv by (left; exact D); rewrite Ropp_0, Rplus_0_r, Rabs_R1; lra].
          assert (Lj : l = j) by congruence. rewrite VC, Lj, Nat.eqb_refl, Rmult_1_r, Ej. apply Rabs_le. lra.
        * rewrite Kv by (destruct (Nat.eq_dec i j); [right; congruence|left; assumption]). rewrite Ropp_0, Rplus_0_r, Rabs_R0. lra. }
  assert (E : forall i l, (i < n)%nat -> (l < n)%nat -> finite (cov' i l) = true /\ val (cov' i l) = rnd64 (val (IKC i i) * val (cov i l))).
  { intros i l Hi Hl. destruct (single_pairs n i (IKC i) (fun q => cov q l) Hi) as (E1 & E2 & E3).
    { intros q Hq D. rewrite (proj1 (proj2 (I i q Hi Hq))) by congruence. apply Rmult_0_l. }
    assert (Bi : Rabs (val (cov i l)) <= bpow radix2 900).
    { specialize (N i l Hi Hl). destruct (Nat.eqb_spec i l) as [El|D]; [|rewrite N, Rabs_R0; apply bpow_ge_0]. rewrite El in N |- *. rewrite Rabs_pos_eq by exact N. apply B, Hl. }
    destruct (sums_exact _ _ (HP i l Hi Hl)) as [F V].
    - apply pairs_Forall. intros q Hq. split; [apply I; assumption|apply Fc; assumption].
    - left. exact E1.
    - rewrite E3, Rabs_mult. apply (to_big _ 900); [lia|]. rewrite <- (Rmult_1_l (bpow radix2 900)). apply Rmult_le_compat; try apply Rabs_pos; [apply (I i i Hi Hi)|exact Bi].
    - split; [exact F|]. rewrite V, E2. reflexivity. }
  assert (Same : forall i, (i < n)%nat -> i <> j -> val (cov' i i) = val (cov i i)).
  { intros i Hi D. destruct (E i i Hi Hi) as [_ ->]. destruct (I i i Hi Hi) as (_ & _ & I1 & _). rewrite I1 by (reflexivity || exact D). rewrite Rmult_1_l. apply rnd_id, fmt_val. }
  split; [intros i l Hi Hl; apply (E i l Hi Hl)|]. split.
  - intros i l Hi Hl. pose proof (N i l Hi Hl) as Nil. destruct (Nat.eqb_spec i l) as [El|D].
    + rewrite <- El in Nil |- *. destruct (Nat.eq_dec i j) as [Ej|Dj]; [rewrite Ej; apply B1|rewrite (Same i Hi Dj); exact Nil].
    + destruct (E i l Hi Hl) as [_ ->]. rewrite Nil, Rmult_0_r. apply rnd_0.
  - intros i Hi D. split; [apply (Same i Hi D)|apply (K0 i Hi D)].
Qed.
(** one predict (no overflow) or one correction with a direct measurement of some state, of a KalmanFilter or EKF
    with n states that do not influence each other; model, noises and their numbers may differ from call to call *)
Inductive decoupled_step (n : nat) (cov cov' : fmat) : Prop :=
| by_predict p m A Pn Rp V Rc : predicted_cov n p m A cov Pn Rp V Rc cov' -> separate n n A -> separate n p Pn -> separate n m V -> independent_noise p Rp -> independent_noise m Rc ->
    (forall i, (i < n)%nat -> finite (cov' i i) = true /\ Rabs (val (cov' i i)) <= bpow radix2 900) -> decoupled_step n cov cov'
| by_correct j C Q K : (j < n)%nat -> reads n j C -> finite (Q 0%nat 0%nat) = true -> bpow radix2 (-900) <= val (Q 0%nat 0%nat) <= bpow radix2 900 ->
    correction1 n C cov Q K cov' -> decoupled_step n cov cov'.
Inductive decoupled_run (n : nat) : fmat -> fmat -> Prop :=
| run_start cov : decoupled_run n cov cov
| run_step cov cov' cov'' : decoupled_run n cov cov' -> decoupled_step n cov' cov'' -> decoupled_run n cov cov''.
(** C118 (history): the covariance stays diagonal and no variance is ever negative, whatever the history *)
Theorem C118_history n cov cov' : decoupled_run n cov cov' -> finite_mat n n cov -> independent_noise n cov -> (forall i, (i < n)%nat -> val (cov i i) <= bpow radix2 900) ->
  finite_mat n n cov' /\ (forall i j, (i < n)%nat -> (j < n)%nat -> i <> j -> val (cov' i j) = 0) /\ (forall i, (i < n)%nat -> 0 <= val (cov' i i) <= bpow radix2 900).
Proof.
  intros Run F N B. enough (G : finite_mat n n cov' /\ independent_noise n cov' /\ forall i, (i < n)%nat -> val (cov' i i) <= bpow radix2 900).
  { destruct G as (G1 & G2 & G3). split; [exact G1|]. split.
    - intros i j Hi Hj D. specialize (G2 i j Hi Hj). destruct (Nat.eqb_spec i j); [contradiction|exact G2].
    - intros i Hi. split; [|apply G3, Hi]. specialize (G2 i i Hi Hi). rewrite Nat.eqb_refl in G2. exact G2. }
  induction Run as [cov|cov c1 c2 R IH S]; [split; [exact F|split; assumption]|]. destruct (IH F N B) as (F1 & N1 & B1). clear IH R F N B.
  destruct S as [p m A Pn Rp V Rc H SA SP SV Np Nm F2|j C Q K Hj HC FQ HQ H].
  - destruct (predict_independent n p m A c1 Pn Rp V Rc c2 H SA SP SV N1 Np Nm) as [G1 G2]; [intros i Hi; apply F2, Hi|]. split; [exact G1|]. split; [exact G2|].
    intros i Hi. eapply Rle_trans; [apply Rle_abs|apply F2, Hi].
  - assert (Pos : forall i, (i < n)%nat -> 0 <= val (c1 i i)) by (intros i Hi; specialize (N1 i i Hi Hi); rewrite Nat.eqb_refl in N1; exact N1).
    assert (I : direct_input n j C c1 Q).
    { split; [exact Hj|]. split; [exact HC|]. split; [exact F1|]. split; [|split; [apply Pos, Hj|split; assumption]].
      intros l Hl. specialize (N1 l j Hl Hj). destruct (Nat.eqb_spec l j) as [El|D]; [rewrite El in N1 |- *; rewrite Rabs_pos_eq by exact N1; apply B1, Hj|rewrite N1, Rabs_R0; apply bpow_ge_0]. }
    destruct (C118_independent n j C c1 Q K c2 I N1 B1 H) as (G1 & G2 & G3). split; [exact G1|]. split; [exact G2|].
    intros i Hi. destruct (Nat.eq_dec i j) as [->|D]; [|rewrite (proj1 (G3 i Hi D)); apply B1, Hi]. destruct (C118_variance n j C c1 Q K c2 I H) as [_ B2]. specialize (B1 j Hj). lra.
Qed.

(** ** Measuring again and again *)
(** direct measurements of state j, one after the other, and their noises *)
Inductive measured (n j : nat) (cov : fmat) : list R -> fmat -> Prop :=
| measured_none : measured n j cov [] cov
| measured_once noises cov' C Q K cov'' : measured n j cov noises cov' -> direct_input n j C cov' Q -> correction1 n C cov' Q K cov'' ->
    measured n j cov (val (Q 0%nat 0%nat) :: noises) cov''.
Fixpoint total (l : list R) : R := match l with [] => 0 | x :: l => x + total l end.
(** C118 (repetition): after measurements with noises q1, q2, ... the variance is that of exact arithmetic,
    1 / (1 / p + 1 / q1 + 1 / q2 + ...), up to 2^-50 p (and a tiny absolute error) for every measurement *)
Theorem C118_repeated n j cov noises cov' : measured n j cov noises cov' -> 0 <= val (cov j j) ->
  let p := val (cov j j) in
  0 <= val (cov' j j) <= p /\ Rabs (val (cov' j j) - p / (1 + p * total (map Rinv noises))) <= INR (length noises) * (bpow radix2 (-50) * p + bpow radix2 (-1075)).
Proof.
  intros M P. cbv zeta. set (p := val (cov j j)) in *. set (d := bpow radix2 (-50) * p + bpow radix2 (-1075)).
  enough (G : 0 <= val (cov' j j) <= p /\ 0 <= total (map Rinv noises) /\ Rabs (val (cov' j j) - p / (1 + p * total (map Rinv noises))) <= INR (length noises) * d) by (destruct G as (G1 & _ & G2); split; assumption).
  induction M as [|noises c1 C Q K c2 M IH DI Run].
  - cbn [map total length]. simpl (INR 0). fold p. split; [lra|]. split; [lra|]. replace (p - p / (1 + p * 0)) with 0 by field. rewrite Rabs_R0. lra.
  - destruct IH as (B & T & E). destruct (C118_variance n j C c1 Q K c2 DI Run) as [_ B2]. pose proof (C118_accuracy n j C c1 Q K c2 DI Run) as A. cbv zeta in A.
    destruct DI as (_ & _ & _ & _ & _ & _ & HQ). pose proof (bpow_gt_0 radix2 (-900)) as Q0. cbn [map total length]. rewrite S_INR. set (q := val (Q 0%nat 0%nat)) in *. set (v := val (c1 j j)) in *. set (w := val (c2 j j)) in *.
    assert (iq : 0 < / q) by (apply Rinv_0_lt_compat; lra). set (t := total (map Rinv noises)) in *. split; [lra|]. split; [lra|].
    assert (pt : 0 <= p * t) by (apply Rmult_le_pos; assumption). set (e := p / (1 + p * t)) in *.
    assert (e0 : 0 <= e) by (apply Rmult_le_pos; [exact P|left; apply Rinv_0_lt_compat; lra]).
    assert (Ee : p / (1 + p * (/ q + t)) = e * q / (e + q)).
    { assert (0 <= p * / q) by (apply Rmult_le_pos; lra). assert (0 <= q * (p * t)) by (apply Rmult_le_pos; lra). unfold e. field. repeat split; lra. }
    rewrite Ee. assert (L : Rabs (v * q / (v + q) - e * q / (e + q)) <= Rabs (v - e)).
    { replace (v * q / (v + q) - e * q / (e + q)) with (q / (v + q) * (q / (e + q)) * (v - e)) by (field; lra). rewrite Rabs_mult. rewrite <- (Rmult_1_l (Rabs (v - e))) at 2. apply Rmult_le_compat_r; [apply Rabs_pos|].
      assert (R1 : forall y, 0 <= y -> 0 <= q / (y + q) <= 1).
      { intros y Hy. split; [apply Rmult_le_pos; [lra|left; apply Rinv_0_lt_compat; lra]|]. apply (Rmult_le_reg_r (y + q)); [lra|]. unfold Rdiv. rewrite Rmult_assoc, Rinv_l by lra. lra. }
      destruct (R1 v ltac:(lra)) as [a1 a2]. destruct (R1 e e0) as [b1 b2]. rewrite Rabs_pos_eq by (apply Rmult_le_pos; assumption). rewrite <- (Rmult_1_l 1). apply Rmult_le_compat; assumption. }
    assert (D : bpow radix2 (-50) * v <= bpow radix2 (-50) * p) by (apply Rmult_le_compat_l; [apply bpow_ge_0|lra]).
    replace (w - e * q / (e + q)) with ((w - v * q / (v + q)) + (v * q / (v + q) - e * q / (e + q))) by ring. eapply Rle_trans; [apply Rabs_triang|]. unfold d in E |- *. lra.
Qed.
(** so k measurements with noise q leave at most q / k, up to that *)
Theorem C118_repeated_noise n j cov noises cov' q : measured n j cov noises cov' -> 0 <= val (cov j j) -> 0 < q -> Forall (eq q) noises -> noises <> [] ->
  val (cov' j j) <= q / INR (length noises) + INR (length noises) * (bpow radix2 (-50) * val (cov j j) + bpow radix2 (-1075)).
Proof.
  intros M P Q F NE. destruct (C118_repeated n j cov noises cov' M P) as [_ E]. cbv zeta in E. set (p := val (cov j j)) in *.
  assert (T : total (map Rinv noises) = INR (length noises) / q).
  { clear - F Q. induction F as [|x l Hx F IH]; [simpl; field; lra|]. cbn [map total length]. rewrite IH, S_INR, <- Hx. field. lra. }
  rewrite T in E. assert (k0 : 1 <= INR (length noises)) by (destruct noises; [congruence|]; cbn [length]; rewrite S_INR; pose proof (pos_INR (length noises)); lra).
  set (k := INR (length noises)) in *. apply Rabs_le_inv in E.
  assert (kq : 0 < k / q) by (apply Rmult_lt_0_compat; [lra|apply Rinv_0_lt_compat; exact Q]). assert (pk : 0 <= p * (k / q)) by (apply Rmult_le_pos; lra).
  assert (B : p / (1 + p * (k / q)) <= q / k); [|lra].
  apply (Rmult_le_reg_r (1 + p * (k / q))); [lra|]. unfold Rdiv at 1. rewrite Rmult_assoc, Rinv_l by lra.
  replace (q / k * (1 + p * (k / q))) with (q / k + p) by (field; lra). assert (0 <= q / k) by (apply Rmult_le_pos; [lra|left; apply Rinv_0_lt_compat; lra]). lra.
Qed.

(** ** A correction of one state, computed *)
Definition m1 (a : f64) : fmat := fun _ _ => a.
Lemma inverse1 s : finite s = true -> inverse64 1 (m1 s) (m1 (fdiv64 fone s)).
Proof.
  intros Fs. exists (m1 s), (m1 s), (fun i => i), (m1 fone). split; [|split].
  - split; [split; [intros i Hi; exact Hi|intros i k _ _ E; exact E]|]. split; [intros i k Hi; replace i with 0%nat by lia; apply sum_one|intros i k Hi; lia].
  - intros i c Hi Hc. replace i with 0%nat by lia. replace c with 0%nat by lia. apply sum_one.
  - intros i c Hi Hc. replace i with 0%nat by lia. exists fone. split; [apply sum_one|]. left. reflexivity.
Qed.
(** the doubles a correction of one state computes, from C, P and Q *)
Definition run_PC (c p : f64) := fmul64 p c.
Definition run_S (c p q : f64) := fadd64 q (fmul64 c (run_PC c p)).
Definition run_K (c p q : f64) := fmul64 (run_PC c p) (fdiv64 fone (run_S c p q)).
Definition run_P (c p q : f64) := fmul64 (fadd64 fone (fmul64 (fopp64 (run_K c p q)) c)) p.
Lemma run1 c p q : finite (run_S c p q) = true -> correction1 1 (m1 c) (m1 p) (m1 q) (m1 (run_K c p q)) (m1 (run_P c p q)).
Proof.
  intros F. exists (m1 (run_S c p q)), (m1 (fdiv64 fone (run_S c p q))).
  assert (PC : product 1 1 1 (m1 p) (fun i k => m1 c k i) (m1 (run_PC c p))) by (intros i k _ _; apply sum_prod).
  split; [exists (m1 (run_PC c p)); split; [exact PC|]; intros i k _ _; apply (sum_add [(fone, q)] [(c, run_PC c p)]); [apply sum_one|apply sum_prod]|].
  split; [apply inverse1, F|]. split; [exists (m1 (run_PC c p)); split; [exact PC|intros i k _ _; apply sum_prod]|].
  exists (m1 (fadd64 fone (fmul64 (fopp64 (run_K c p q)) c))). split; [|intros i k _ _; apply sum_prod].
  intros i k Hi Hk. replace i with 0%nat by lia. replace k with 0%nat by lia. apply (sum_add [(fone, fone)] [(fopp64 (run_K c p q), c)]); [apply sum_one|apply sum_prod].
Qed.
Definition q40 : f64 := @B754_finite 53 1024 false 4503599627370496 (-92) eq_refl.
Lemma q40_val : val q40 = bpow radix2 (-40).
Proof. unfold val, q40, B2R, F2R. cbn [cond_Zopp Fnum Fexp]. change (IZR (Zpos 4503599627370496)) with (bpow radix2 52). rewrite <- bpow_plus. reflexivity. Qed.
Lemma neg_val y : Bltb y fzero = true -> finite y = true -> val y < 0.
Proof. intros H F. rewrite Bltb_correct in H by (try exact F; reflexivity). change (B2R fzero) with 0 in H. destruct (Rlt_bool_spec (B2R y) 0); [assumption|discriminate]. Qed.
(** C118 is false of a measurement of 7 times the state: variance 10^6, noise 2^-40, and the variance after it is negative *)
Theorem C118_scaled : exists C cov Q K cov' : fmat, val (C 0%nat 0%nat) = 7 /\ val (cov 0%nat 0%nat) = 1000000 /\ val (Q 0%nat 0%nat) = bpow radix2 (-40) /\
  correction1 1 C cov Q K cov' /\ finite (cov' 0%nat 0%nat) = true /\ val (cov' 0%nat 0%nat) < 0.
Proof.
  exists (m1 (fz 7)), (m1 (fz 1000000)), (m1 q40), (m1 (run_K (fz 7) (fz 1000000) q40)), (m1 (run_P (fz 7) (fz 1000000) q40)).
  assert (F : finite (run_P (fz 7) (fz 1000000) q40) = true) by (vm_compute; reflexivity).
  split; [apply (fz_val 7); lia|]. split; [apply (fz_val 1000000); lia|]. split; [exact q40_val|]. split; [apply run1; vm_compute; reflexivity|]. split; [exact F|].
  apply (neg_val (run_P (fz 7) (fz 1000000) q40)); [vm_compute; reflexivity|exact F].
Qed.
(** the hypotheses of C118 are met: the same variance and noise, measured directly *)
Example C118_nonvacuous : direct_input 1 0 (m1 fone) (m1 (fz 1000000)) (m1 q40) /\
  correction1 1 (m1 fone) (m1 (fz 1000000)) (m1 q40) (m1 (run_K fone (fz 1000000) q40)) (m1 (run_P fone (fz 1000000) q40)).
Proof.
  pose proof (fz_val 1000000 ltac:(lia)) as V. split; [|apply run1; vm_compute; reflexivity].
  split; [lia|]. split; [intros l Hl; replace l with 0%nat by lia; split; [reflexivity|apply one_ok]|]. split; [intros i k _ _; vm_compute; reflexivity|].
  assert (B : 1000000 <= bpow radix2 900). { apply Rle_trans with (bpow radix2 20); [change (bpow radix2 20) with 1048576; lra|apply bpow_le; lia]. }
  split; [intros l _; unfold m1; rewrite V, Rabs_pos_eq; lra|]. split; [unfold m1; rewrite V; lra|]. split; [reflexivity|]. unfold m1. rewrite q40_val. split; apply bpow_le; lia.
Qed.
(** C118_repeated: three times measured, with noises 1, 2 and 1 *)
Definition P1 : f64 := run_P fone (fz 4) (fz 1).
Definition P2 : f64 := run_P fone P1 (fz 2).
Definition P3 : f64 := run_P fone P2 (fz 1).
Example C118_repeated_nonvacuous : measured 1 0 (m1 (fz 4)) [val (fz 1); val (fz 2); val (fz 1)] (m1 P3) /\ 0 <= val (fz 4) /\ Forall (eq 1) [val (fz 1); 1].
Proof.
  pose proof (fz_val 4 ltac:(lia)) as V4. pose proof (fz_val 2 ltac:(lia)) as V2. pose proof (fz_val 1 ltac:(lia)) as V1.
  assert (B : 4 <= bpow radix2 900) by (apply Rle_trans with (bpow radix2 2); [change (bpow radix2 2) with 4; lra|apply bpow_le; lia]).
  assert (b9 : bpow radix2 (-900) <= 1) by (change 1 with (bpow radix2 0); apply bpow_le; lia).
  assert (D : forall p q, finite p = true -> 0 <= val p <= 4 -> finite q = true -> 1 <= val q <= 4 -> direct_input 1 0 (m1 fone) (m1 p) (m1 q)).
  { intros p q Fp Vp Fq Vq. split; [lia|]. split; [intros l Hl; replace l with 0%nat by lia; split; [reflexivity|apply one_ok]|]. split; [intros i k _ _; exact Fp|].
    split; [intros l _; unfold m1; rewrite Rabs_pos_eq; lra|]. split; [exact (proj1 Vp)|]. split; [exact Fq|]. unfold m1. lra. }
  assert (D0 : direct_input 1 0 (m1 fone) (m1 (fz 4)) (m1 (fz 1))) by (apply D; [reflexivity|lra|reflexivity|lra]).
  assert (R0 : correction1 1 (m1 fone) (m1 (fz 4)) (m1 (fz 1)) (m1 (run_K fone (fz 4) (fz 1))) (m1 P1)) by (apply run1; vm_compute; reflexivity).
  destruct (C118_variance 1 0 _ _ _ _ _ D0 R0) as [_ B1]. unfold m1 in B1.
  assert (D1 : direct_input 1 0 (m1 fone) (m1 P1) (m1 (fz 2))) by (apply D; [vm_compute; reflexivity|lra|reflexivity|lra]).
  assert (R1 : correction1 1 (m1 fone) (m1 P1) (m1 (fz 2)) (m1 (run_K fone P1 (fz 2))) (m1 P2)) by (apply run1; vm_compute; reflexivity).
  destruct (C118_variance 1 0 _ _ _ _ _ D1 R1) as [_ B2]. unfold m1 in B2.
  assert (D2 : direct_input 1 0 (m1 fone) (m1 P2) (m1 (fz 1))) by (apply D; [vm_compute; reflexivity|lra|reflexivity|lra]).
  assert (R2 : correction1 1 (m1 fone) (m1 P2) (m1 (fz 1)) (m1 (run_K fone P2 (fz 1))) (m1 P3)) by (apply run1; vm_compute; reflexivity).
  split; [|split; [lra|repeat constructor; lra]].
  exact (measured_once 1 0 _ _ _ _ _ _ _ (measured_once 1 0 _ _ _ _ _ _ _ (measured_once 1 0 _ _ _ _ _ _ _ (measured_none 1 0 _) D0 R0) D1 R1) D2 R2).
Qed.
(** a history of two states with both calls: variances 4 and 9, a model [1 0; 0 2] with process noises 3 and 1, then a
    measurement of state 1 with noise 1 *)
Definition dot2 (a b c d : f64) : f64 := fadd64 (fmul64 a b) (fmul64 c d).
Lemma dot2_sum a b c d : sums [(a, b); (c, d)] (dot2 a b c d).
Proof. apply (sum_add [(a, b)] [(c, d)]); apply sum_prod. Qed.
Definition mul2 (A B : fmat) : fmat := fun i j => dot2 (A i 0%nat) (B 0%nat j) (A i 1%nat) (B 1%nat j).
Lemma mul2_product c A B : product 2 2 c A B (mul2 A B).
Proof. intros i j _ _. apply dot2_sum. Qed.
Definition diag2 (a b : f64) : fmat := mat2 a fzero fzero b.
Definition tr2 (M : fmat) : fmat := fun i j => M j i.
Definition predict2 (A cov Pn Rp : fmat) : fmat := fun i j => fadd64 (mul2 (mul2 A cov) (tr2 A) i j) (mul2 (mul2 Pn Rp) (tr2 Pn) i j).
Definition K2 (C cov Q : fmat) : fmat := fun i _ => fmul64 (mul2 cov (tr2 C) i 0%nat) (fdiv64 fone (fadd64 (Q 0%nat 0%nat) (mul2 C (mul2 cov (tr2 C)) 0%nat 0%nat))).
Definition correct2 (C cov Q : fmat) : fmat := mul2 (fun i j => fadd64 (if Nat.eqb i j then fone else fzero) (fmul64 (fopp64 (K2 C cov Q i 0%nat)) (C 0%nat j))) cov.
Lemma predict2_ok A cov Pn Rp V Rc : predicted_cov 2 2 0 A cov Pn Rp V Rc (predict2 A cov Pn Rp).
Proof.
  exists (mul2 A cov), (mul2 Pn Rp), (m1 fzero). split; [apply mul2_product|]. split; [apply mul2_product|]. split; [intros i j _ Hj; lia|].
  intros i j _ _. apply (sum_add [(mul2 A cov i 0%nat, A j 0%nat); (mul2 A cov i 1%nat, A j 1%nat)] [(mul2 Pn Rp i 0%nat, Pn j 0%nat); (mul2 Pn Rp i 1%nat, Pn j 1%nat)]); apply dot2_sum.
Qed.
Lemma correct2_ok C cov Q : finite (fadd64 (Q 0%nat 0%nat) (mul2 C (mul2 cov (tr2 C)) 0%nat 0%nat)) = true -> correction1 2 C cov Q (K2 C cov Q) (correct2 C cov Q).
Proof.
  intros F. set (s := fadd64 (Q 0%nat 0%nat) (mul2 C (mul2 cov (tr2 C)) 0%nat 0%nat)) in *. exists (m1 s), (m1 (fdiv64 fone s)).
  split; [|split; [apply inverse1, F|split]].
  - exists (mul2 cov (tr2 C)). split; [apply mul2_product|]. intros i j Hi Hj. assert (i = 0%nat) as -> by lia. assert (j = 0%nat) as -> by lia.
    apply (sum_add [(fone, Q 0%nat 0%nat)] [(C 0%nat 0%nat, mul2 cov (tr2 C) 0%nat 0%nat); (C 0%nat 1%nat, mul2 cov (tr2 C) 1%nat 0%nat)]); [apply sum_one|apply dot2_sum].
  - exists (mul2 cov (tr2 C)). split; [apply mul2_product|]. intros i j _ Hj. assert (j = 0%nat) as -> by lia. apply sum_prod.
  - exists (fun i j => fadd64 (if Nat.eqb i j then fone else fzero) (fmul64 (fopp64 (K2 C cov Q i 0%nat)) (C 0%nat j))). split; [|apply mul2_product].
    intros i j _ _. apply (sum_add [(fone, if Nat.eqb i j then fone else fzero)] [(fopp64 (K2 C cov Q i 0%nat), C 0%nat j)]); [apply sum_one|apply sum_prod].
Qed.
Lemma diag2_separate a b p : separate 2 p (diag2 a b).
Proof. intros i j k Hi Hj _ D. destruct k as [|[|k]]; destruct (two i Hi) as [->| ->], (two j Hj) as [->| ->]; try congruence; cbn [diag2 mat2]; (left; reflexivity) || (right; reflexivity). Qed.
Lemma diag2_independent a b : 0 <= val a -> 0 <= val b -> independent_noise 2 (diag2 a b).
Proof. intros Ha Hb i j Hi Hj. destruct (two i Hi) as [->| ->], (two j Hj) as [->| ->]; cbn [Nat.eqb diag2 mat2]; try assumption; reflexivity. Qed.
Definition h_cov : fmat := diag2 (fz 4) (fz 9).
Definition h_pred : fmat := predict2 (diag2 (fz 1) (fz 2)) h_cov (diag2 (fz 1) (fz 1)) (diag2 (fz 3) (fz 1)).
Definition h_C : fmat := fun _ l => if Nat.eqb l 1 then fone else fzero.
Example C118_history_nonvacuous : decoupled_run 2 h_cov (correct2 h_C h_pred (m1 (fz 1))) /\
  finite_mat 2 2 h_cov /\ independent_noise 2 h_cov /\ (forall i, (i < 2)%nat -> val (h_cov i i) <= bpow radix2 900) /\ val (h_pred 1%nat 1%nat) = 37.
Proof.
  pose proof (fz_val 4 ltac:(lia)) as V4. pose proof (fz_val 9 ltac:(lia)) as V9. pose proof (fz_val 3 ltac:(lia)) as V3. pose proof (fz_val 1 ltac:(lia)) as V1.
  assert (B : 64 <= bpow radix2 900) by (apply Rle_trans with (bpow radix2 6); [change (bpow radix2 6) with 64; lra|apply bpow_le; lia]).
  assert (E0 : h_pred 0%nat 0%nat = fz 7) by (apply B2SF_inj; vm_compute; reflexivity). assert (E1 : h_pred 1%nat 1%nat = fz 37) by (apply B2SF_inj; vm_compute; reflexivity).
  split; [|split; [|split; [|split]]].
  - apply (run_step 2 _ h_pred); [apply (run_step 2 _ h_cov); [apply run_start|]|].
    + apply (by_predict 2 _ _ 2 0 (diag2 (fz 1) (fz 2)) (diag2 (fz 1) (fz 1)) (diag2 (fz 3) (fz 1)) (m1 fzero) (m1 fzero)); [apply predict2_ok|apply diag2_separate|apply diag2_separate| | | |].
      * intros i j k _ _ Hk. lia.
      * apply diag2_independent; [rewrite V3|rewrite V1]; lra.
      * intros i j Hi. lia.
      * intros i Hi. destruct (two i Hi) as [->| ->]; [rewrite E0, (fz_val 7) by lia|rewrite E1, (fz_val 37) by lia]; (split; [vm_compute; reflexivity|rewrite Rabs_pos_eq; lra]).
    + apply (by_correct 2 _ _ 1 h_C (m1 (fz 1)) (K2 h_C h_pred (m1 (fz 1)))); [lia| | | |apply correct2_ok; vm_compute; reflexivity].
      * intros l Hl. destruct (two l Hl) as [->| ->]; (split; [reflexivity|]); [reflexivity|apply one_ok].
      * vm_compute. reflexivity.
      * unfold m1. rewrite V1. change 1 with (bpow radix2 0). split; apply bpow_le; lia.
  - intros i j Hi Hj. destruct (two i Hi) as [->| ->], (two j Hj) as [->| ->]; vm_compute; reflexivity.
  - apply diag2_independent; [rewrite V4|rewrite V9]; lra.
  - intros i Hi. destruct (two i Hi) as [->| ->]; cbn [h_cov diag2 mat2]; [rewrite V4|rewrite V9]; lra.
  - rewrite E1. apply (fz_val 37). lia.
Qed.
(** constant velocity: position and velocity with non-negative covariances, where the terms do not cancel *)
Definition cv_A : fmat := mat2 (fz 1) (fz 1) fzero (fz 1).
Definition cv_cov : fmat := mat2 (fz 4) (fz 1) (fz 1) (fz 3).
Example C109_sign_nonvacuous : no_cancellation 2 (cv_A 0%nat) cv_cov /\ no_cancellation 2 (cv_A 1%nat) cv_cov /\ val (cv_cov 0%nat 1%nat) = 1.
Proof.
  assert (Z0 : val fzero = 0) by reflexivity.
  split; [|split]; [| |exact (fz_val 1 ltac:(lia))]; intros k l Hk Hl; destruct (two k Hk) as [->| ->], (two l Hl) as [->| ->]; cbn [cv_A cv_cov mat2]; rewrite ?Z0, ?fz_val by lia; lra.
Qed.
