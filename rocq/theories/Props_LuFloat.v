(** C117: what inverse() returns in double arithmetic *)
From Coq Require Import ZArith Reals Lra Lia Bool List FinFun.
From Flocq Require Import Core IEEE754.BinarySingleNaN.
From Verif Require Import Outcome FB_Model FloatTime AngleFloat KF_Float MatFloat UKFFloat LltFloat LuFloat Props_MatFloat Props_MatFloatC Props_UKFFloat Props_Llt Props_FloatRun.
Import ListNotations.
Open Scope R_scope.

(** ** A quotient that is finite *)
Lemma round_opp x : rnd64 (- x) = - rnd64 x.
Proof. apply round_NE_opp. Qed.
Lemma rnd_rel_abs x : bpow radix2 (-1022) <= Rabs x -> Rabs (rnd64 x - x) <= uu * Rabs x.
Proof.
  intros H. destruct (Rle_dec 0 x) as [P|N].
  - rewrite (Rabs_pos_eq x) in H |- * by exact P. destruct (rnd_rel x H) as [R1 R2]. apply Rabs_le. lra.
  - rewrite Rabs_left in H by lra. destruct (rnd_rel (- x) H) as [R1 R2]. rewrite round_opp in R1, R2. rewrite (Rabs_left x) by lra. apply Rabs_le. lra.
Qed.
Lemma div_inv y l : finite l = true -> finite (fdiv64 y l) = true -> finite y = true /\ val l <> 0 /\ val (fdiv64 y l) = rnd64 (val y / val l).
Proof.
  intros Fl F. assert (Fy : finite y = true).
  { destruct y as [s|s| |s m e B], l as [s'|s'| |s' m' e' B']; try reflexivity; try discriminate Fl; discriminate F. }
  assert (L0 : val l <> 0).
  { destruct l as [s'|s'| |s' m' e' B']; try discriminate Fl.
    - destruct y as [s|s| |s m e B]; discriminate F.
    - unfold val, B2R. intros E. apply eq_0_F2R in E. destruct s'; discriminate E. }
  split; [exact Fy|]. split; [exact L0|].
  pose proof (Bdiv_correct 53 1024 prec64_gt_0 prec64_lt mode_NE y l L0) as C. simpl round_mode in C. revert C. case Rlt_bool_spec; intros _ C; [exact (proj1 C)|].
  apply sf_finite in C. unfold fdiv64 in F. rewrite F in C. discriminate C.
Qed.
Lemma quotient_err y l q : finite l = true -> Rabs (val l) <= bpow radix2 513 -> quotient64 y l q -> finite q = true ->
  finite y = true /\ val l <> 0 /\ Rabs (val q * val l - val y) <= ((1 + uu) * (1 + uu) - 1) * Rabs (val y) + tiny * Rabs (val l).
Proof.
  intros Fl L2 Q F. pose proof uu_pos as U. pose proof tiny_pos as T. pose proof uu_val as UV. destruct Q as [-> | ->].
  - destruct (div_inv _ _ Fl F) as (Fy & L0 & V). split; [exact Fy|]. split; [exact L0|]. rewrite V. set (v := val l) in *.
    pose proof (rnd_err (val y / v)) as E. replace (rnd64 (val y / v) * v - val y) with ((rnd64 (val y / v) - val y / v) * v) by (field; exact L0). rewrite Rabs_mult.
    assert (E2 : Rabs (rnd64 (val y / v) - val y / v) * Rabs v <= (uu * Rabs (val y / v) + tiny) * Rabs v) by (apply Rmult_le_compat_r; [apply Rabs_pos|exact E]).
    replace ((uu * Rabs (val y / v) + tiny) * Rabs v) with (uu * (Rabs (val y / v) * Rabs v) + tiny * Rabs v) in E2 by ring.
    assert (Ey : Rabs (val y / v) * Rabs v = Rabs (val y)) by (rewrite <- Rabs_mult; f_equal; field; exact L0). rewrite Ey in E2.
    pose proof (Rabs_pos (val y)) as Py. assert (0 <= uu * Rabs (val y)) by (apply Rmult_le_pos; lra). assert (0 <= uu * (uu * Rabs (val y))) by (apply Rmult_le_pos; lra). lra.
  - destruct (mul_inv _ _ F) as (Fy & Fi & V). destruct (div_inv _ _ Fl Fi) as (_ & L0 & Vi). split; [exact Fy|]. split; [exact L0|]. rewrite V. set (v := val l) in *.
    replace (val fone / v) with (/ v) in Vi by (rewrite (proj2 one_ok); field; exact L0).
    assert (Av : 0 < Rabs v) by (apply Rabs_pos_lt; exact L0).
    assert (I1 : bpow radix2 (-1022) <= Rabs (/ v)).
    { rewrite Rabs_inv. apply Rle_trans with (bpow radix2 (-513)); [apply bpow_le; lia|]. change (-513)%Z with (Z.opp 513). rewrite bpow_opp. apply Rinv_le_contravar; assumption. }
    pose proof (rnd_rel_abs _ I1) as Rr. rewrite <- Vi in Rr. set (r := val (fdiv64 fone l)) in *.
    assert (R1 : Rabs (r * v - 1) <= uu).
    { replace (r * v - 1) with ((r - / v) * v) by (field; exact L0). rewrite Rabs_mult. apply Rle_trans with (uu * Rabs (/ v) * Rabs v); [apply Rmult_le_compat_r; lra|].
      rewrite Rmult_assoc, <- Rabs_mult, Rinv_l, Rabs_R1 by exact L0. lra. }
    pose proof (rnd_err (val y * r)) as E.
    replace (rnd64 (val y * r) * v - val y) with ((rnd64 (val y * r) - val y * r) * v + val y * (r * v - 1)) by ring.
    eapply Rle_trans; [apply Rabs_triang|]. rewrite !Rabs_mult.
    assert (E2 : Rabs (rnd64 (val y * r) - val y * r) * Rabs v <= (uu * Rabs (val y * r) + tiny) * Rabs v) by (apply Rmult_le_compat_r; lra).
    assert (E3 : Rabs (val y) * Rabs (r * v - 1) <= Rabs (val y) * uu) by (apply Rmult_le_compat_l; [apply Rabs_pos|exact R1]).
    assert (R2 : Rabs (r * v) <= 1 + uu) by (pose proof (Rabs_triang (r * v - 1) 1) as Q; replace (r * v - 1 + 1) with (r * v) in Q by ring; rewrite Rabs_R1 in Q; lra).
    assert (E4 : Rabs (val y) * Rabs (r * v) <= Rabs (val y) * (1 + uu)) by (apply Rmult_le_compat_l; [apply Rabs_pos|exact R2]).
    replace ((uu * Rabs (val y * r) + tiny) * Rabs v) with (uu * (Rabs (val y) * Rabs (r * v)) + tiny * Rabs v) in E2 by (rewrite !Rabs_mult; ring).
    assert (E5 : uu * (Rabs (val y) * Rabs (r * v)) <= uu * (Rabs (val y) * (1 + uu))) by (apply Rmult_le_compat_l; lra). lra.
Qed.

(** ** Sums of a first term and subtracted products, at most 200 terms *)
Definition eps : R := bpow radix2 (-43).
Definition tau : R := bpow radix2 (-1060).
Lemma minus_sum k a f g y : (k <= 200)%nat -> sums ((fone, a) :: pairs k (fun l => fopp64 (f l)) g) y -> finite y = true ->
  finite a = true /\ (forall l, (l < k)%nat -> finite (f l) = true /\ finite (g l) = true) /\
  Rabs (val y - (val a - rsum k (fun l => val (f l) * val (g l)))) <= eps * (Rabs (val a) + rsum k (fun l => Rabs (val (f l)) * Rabs (val (g l)))) + tau.
Proof.
  intros Hk H F. destruct (sums_error _ _ H F) as [Fa N]. inversion Fa as [|? ? [_ F1] F2]; subst. split; [exact F1|]. split.
  - intros l Hl. unfold pairs in F2. rewrite Forall_map, Forall_forall in F2. destruct (F2 l) as [G1 G2]; [apply in_seq; lia|]. cbn [fst snd] in G1, G2. unfold fopp64 in G1. rewrite is_finite_Bopp in G1. split; assumption.
  - unfold near in N. cbn [ex mag fst snd length] in N. rewrite pairs_length, ex_pairs, mag_pairs, (proj2 one_ok), Rmult_1_l in N.
    rewrite (rsum_ext k _ (fun j => -1 * (val (f j) * val (g j)))) in N by (intros j _; rewrite opp_val; ring). rewrite rsum_scal in N.
    rewrite (rsum_ext k (fun k0 => Rabs (val (fopp64 (f k0))) * Rabs (val (g k0))) (fun j => Rabs (val (f j)) * Rabs (val (g j)))) in N by (intros j _; rewrite opp_val, Rabs_Ropp; reflexivity).
    set (M := rsum k (fun l => Rabs (val (f l)) * Rabs (val (g l)))) in *. set (T := rsum k (fun l => val (f l) * val (g l))) in *.
    replace (val a - T) with (val a + -1 * T) by ring. eapply Rle_trans; [exact N|].
    pose proof (grow_small (Datatypes.S k) ltac:(lia)) as G. fold eps in G. pose proof (grow_ge1 (Datatypes.S k)) as G1.
    assert (M0 : 0 <= M) by (apply rsum_pos; intros; apply Rmult_le_pos; apply Rabs_pos). pose proof (Rabs_pos (val a)).
    apply Rplus_le_compat; [apply Rmult_le_compat_r; lra|].
    assert (I : INR (Datatypes.S k) <= 201) by (replace 201 with (INR 201) by (simpl; lra); apply le_INR; lia). pose proof (pos_INR (Datatypes.S k)) as I0.
    unfold tiny, tau. change (-1060)%Z with (15 + -1075)%Z. rewrite bpow_plus. change (bpow radix2 15) with 32768. pose proof (bpow_gt_0 radix2 (-1075)) as B.
    assert (E1 : eps <= 1) by (unfold eps; change 1 with (bpow radix2 0); apply bpow_le; lia).
    rewrite Rmult_assoc, (Rmult_comm (bpow radix2 (-1075))), <- Rmult_assoc. apply Rmult_le_compat_r; [lra|]. apply Rle_trans with (201 * 2); [apply Rmult_le_compat; lra|lra].
Qed.

(** ** The factors *)
Lemma pow_le_bpow q i : 0 <= q <= 4 -> q ^ i <= bpow radix2 (2 * Z.of_nat i).
Proof.
  intros [Q0 Q]. induction i as [|i IH]; [simpl; lra|]. replace (2 * Z.of_nat (Datatypes.S i))%Z with (2 + 2 * Z.of_nat i)%Z by lia. rewrite bpow_plus. change (bpow radix2 2) with 4. simpl pow.
  apply Rmult_le_compat; try lra. apply pow_le; exact Q0.
Qed.
Lemma rsum_geom q i : q <> 1 -> rsum i (fun k => q ^ k) * (q - 1) = q ^ i - 1.
Proof. intros Q. induction i as [|i IH]; cbn [rsum pow]; [ring|]. rewrite Rmult_plus_distr_r, IH. ring. Qed.
Lemma rsum_split n k f : (k <= n)%nat -> rsum n f = rsum k f + rsum (n - k) (fun l => f (k + l)%nat).
Proof.
  intros H. induction n as [|n IH]; [replace k with 0%nat by lia; cbn [rsum Nat.sub]; ring|]. destruct (Nat.eq_dec k (Datatypes.S n)) as [->|D]; [rewrite Nat.sub_diag; cbn [rsum]; ring|].
  replace (Datatypes.S n - k)%nat with (Datatypes.S (n - k)) by lia. cbn [rsum]. rewrite IH by lia. replace (k + (n - k))%nat with n by lia. ring.
Qed.
Lemma abs_le64 y u : finite y = true -> finite u = true -> Bleb (fabs64 y) (fabs64 u) = true -> Rabs (val y) <= Rabs (val u).
Proof.
  intros Fy Fu H. rewrite Bleb_correct in H by (unfold fabs64; rewrite is_finite_Babs; assumption). unfold fabs64 in H. rewrite !B2R_Babs in H. destruct (Rle_bool_spec (Rabs (B2R y)) (Rabs (B2R u))); [assumption|discriminate].
Qed.
Lemma small_consts : 0 < eps /\ eps <= / 1024 /\ 0 < tau /\ 0 < tiny /\ tiny <= tau /\ 4 * uu <= eps.
Proof.
  split; [apply bpow_gt_0|]. split; [unfold eps; change (/ 1024) with (bpow radix2 (-10)); apply bpow_le; lia|]. split; [apply bpow_gt_0|]. split; [apply tiny_pos|].
  split; [apply bpow_le; lia|]. unfold uu, eps. change 4 with (bpow radix2 2). rewrite <- bpow_plus. apply bpow_le. lia.
Qed.
Section Factors.
Variables (n : nat) (S L U : fmat) (pi : nat -> nat) (s : R).
Hypotheses (Hn : (n <= 100)%nat) (Hs : bpow radix2 (-900) <= s <= bpow radix2 300) (FS : forall i j, (i < n)%nat -> (j < n)%nat -> finite (S i j) = true /\ Rabs (val (S i j)) <= s).
Hypotheses (LU : lu64 n S L U pi) (FL : forall i k, (k < i < n)%nat -> finite (L i k) = true).
Definition grown (k : nat) : R := s * (1001 / 1000) * (2001 / 1000) ^ k.
Lemma s_pos : 0 < s. Proof using Hs. eapply Rlt_le_trans; [apply (bpow_gt_0 radix2 (-900))|apply Hs]. Qed.
Lemma tau_s : tau <= eps * s.
Proof using Hs. clear Hn FS LU FL. unfold tau, eps. apply Rle_trans with (bpow radix2 (-43) * bpow radix2 (-900)); [rewrite <- bpow_plus; apply bpow_le; lia|apply Rmult_le_compat_l; [apply bpow_ge_0|apply Hs]]. Qed.
Lemma grown_pos k : 0 < grown k. Proof using Hs. clear Hn FS LU FL. pose proof s_pos. unfold grown. apply Rmult_lt_0_compat; [lra|apply pow_lt; lra]. Qed.
Lemma grown_mono i j : (i <= j)%nat -> grown i <= grown j.
Proof using Hs. clear Hn FS LU FL. intros H. pose proof s_pos. unfold grown. apply Rmult_le_compat_l; [lra|]. apply Rle_pow; [lra|exact H]. Qed.
Lemma grown_top k : (k <= 100)%nat -> grown k <= bpow radix2 501.
Proof using Hs.
  clear Hn FS LU FL. intros H. pose proof s_pos. unfold grown. apply Rle_trans with (bpow radix2 300 * 2 * bpow radix2 200).
  - apply Rmult_le_compat; [lra|apply pow_le; lra|apply Rmult_le_compat; lra|]. eapply Rle_trans; [apply pow_le_bpow; lra|]. apply bpow_le. lia.
  - change 2 with (bpow radix2 1). rewrite <- !bpow_plus. apply bpow_le. lia.
Qed.
Lemma rsum_grown i : rsum i grown = s * ((2001 / 1000) ^ i - 1).
Proof.
  pose proof (rsum_geom (2001 / 1000) i ltac:(lra)) as G. rewrite <- G. unfold grown. rewrite (rsum_scal i (s * (1001 / 1000)) (fun k => (2001 / 1000) ^ k)). field.
Qed.
Lemma factors i : (i <= n)%nat -> (forall k j, (k < i)%nat -> (k <= j < n)%nat -> finite (U k j) = true /\ Rabs (val (U k j)) <= grown k) /\
  (forall a k, (k < i)%nat -> (k < a < n)%nat -> Rabs (val (L a k)) <= 1 + / 1024 / 1024).
Proof using Hn Hs FS LU FL.
  destruct LU as ((Pb & Pi) & HU & HL). pose proof s_pos as Sp. pose proof tau_s as Ts. pose proof small_consts as (e0 & e1 & t0 & ti0 & tt & ue).
  induction i as [|i IH]; intros Hi; [split; intros; lia|]. destruct (IH ltac:(lia)) as [IU IL].
  assert (NU : forall j, (i <= j < n)%nat -> finite (U i j) = true /\ Rabs (val (U i j)) <= grown i).
  { intros j Hj. pose proof (HU i j Hj) as Hsum. unfold lu64_rest in Hsum. destruct (FS (pi i) j ltac:(apply Pb; lia) ltac:(lia)) as [Fs Bs].
    assert (Mg : rsum i (fun l => Rabs (val (L i l)) * Rabs (val (U l j))) <= (1 + / 1024 / 1024) * (s * ((2001 / 1000) ^ i - 1))).
    { rewrite <- rsum_grown, <- rsum_scal. apply rsum_le. intros k Hk. apply Rmult_le_compat; try apply Rabs_pos; [apply IL; lia|apply IU; lia]. }
    assert (M0 : 0 <= rsum i (fun l => Rabs (val (L i l)) * Rabs (val (U l j)))) by (apply rsum_pos; intros; apply Rmult_le_pos; apply Rabs_pos).
    assert (P1 : 1 <= (2001 / 1000) ^ i) by (apply pow_R1_Rle; lra). assert (sP : s <= s * (2001 / 1000) ^ i) by (rewrite <- (Rmult_1_r s) at 1; apply Rmult_le_compat_l; lra).
    assert (F : finite (U i j) = true).
    { apply (sums_finite _ _ Hsum).
      - constructor; [split; [reflexivity|exact Fs]|]. unfold pairs. apply Forall_map, Forall_forall. intros k Hk. apply in_seq in Hk. cbn [fst snd]. unfold fopp64. rewrite is_finite_Bopp. split; [apply FL; lia|apply IU; lia].
      - unfold bound. cbn [mag length fst snd]. rewrite pairs_length, mag_pairs, (proj2 one_ok), Rmult_1_l.
        rewrite (rsum_ext i (fun k0 => Rabs (val (fopp64 (L i k0))) * Rabs (val (U k0 j))) (fun k => Rabs (val (L i k)) * Rabs (val (U k j)))) by (intros k _; rewrite opp_val, Rabs_Ropp; reflexivity).
        pose proof (grow_small (Datatypes.S i) ltac:(lia)) as G. fold eps in G. pose proof (grow_ge1 (Datatypes.S i)) as G1.
        assert (I : INR (Datatypes.S i) <= 101) by (replace 101 with (INR 101) by (simpl; lra); apply le_INR; lia). pose proof (pos_INR (Datatypes.S i)) as I0.
        assert (Q1 : grow (Datatypes.S i) * (Rabs (val (S (pi i) j)) + rsum i (fun l => Rabs (val (L i l)) * Rabs (val (U l j)))) <= 2 * (2 * (s * (2001 / 1000) ^ i))).
        { apply Rmult_le_compat; [lra| |lra|lra]. pose proof (Rabs_pos (val (S (pi i) j))). lra. }
        assert (Q2 : INR (Datatypes.S i) * tiny * grow (Datatypes.S i) <= 101 * tau * 2) by (apply Rmult_le_compat; try lra; [apply Rmult_le_pos; lra|apply Rmult_le_compat; lra]).
        assert (Gt : s * (2001 / 1000) ^ i <= grown i) by (unfold grown; nra). pose proof (grown_top i ltac:(lia)) as Top.
        assert (Tb : tau <= bpow radix2 501) by (apply bpow_le; lia). apply Rle_trans with (bpow radix2 10 * bpow radix2 501); [change (bpow radix2 10) with 1024; lra|]. rewrite <- bpow_plus. apply bpow_le. lia. }
    split; [exact F|]. destruct (minus_sum i (S (pi i) j) (L i) (fun l => U l j) (U i j) ltac:(lia) Hsum F) as (_ & _ & E).
    set (T := rsum i (fun l => val (L i l) * val (U l j))) in *. set (M := rsum i (fun l => Rabs (val (L i l)) * Rabs (val (U l j)))) in *.
    assert (TM : Rabs T <= M) by apply rsum_abs2.
    assert (V : Rabs (val (U i j)) <= Rabs (val (S (pi i) j)) + M + (eps * (Rabs (val (S (pi i) j)) + M) + tau)).
    { replace (val (U i j)) with ((val (U i j) - (val (S (pi i) j) - T)) + (val (S (pi i) j) - T)) by ring. eapply Rle_trans; [apply Rabs_triang|].
      assert (Rabs (val (S (pi i) j) - T) <= Rabs (val (S (pi i) j)) + Rabs T) by (unfold Rminus; eapply Rle_trans; [apply Rabs_triang|rewrite Rabs_Ropp; lra]). lra. }
    assert (E10 : eps <= / 1024 / 1024) by (unfold eps; change (/ 1024 / 1024) with (/ 1024 * / 1024); change (/ 1024) with (bpow radix2 (-10)); rewrite <- bpow_plus; apply bpow_le; lia).
    set (Z := s * (2001 / 1000) ^ i) in *. assert (Zb : Rabs (val (S (pi i) j)) + M <= (1 + / 1024 / 1024) * Z) by (unfold Z in *; lra).
    assert (eZ : eps * (Rabs (val (S (pi i) j)) + M) <= / 1024 / 1024 * ((1 + / 1024 / 1024) * Z)) by (apply Rmult_le_compat; try lra; pose proof (Rabs_pos (val (S (pi i) j))); lra).
    assert (es : eps * s <= / 1024 / 1024 * Z) by (apply Rmult_le_compat; lra).
    unfold grown. replace (s * (1001 / 1000) * (2001 / 1000) ^ i) with (1001 / 1000 * Z) by (unfold Z; ring). lra. }
  split.
  - intros k j Hk Hj. destruct (Nat.eq_dec k i) as [->|D]; [apply NU; exact Hj|apply IU; lia].
  - intros a k Hk Ha. destruct (Nat.eq_dec k i) as [->|D]; [|apply IL; lia]. destruct (HL a i Ha) as (y & _ & Lb & Q). destruct (NU i ltac:(lia)) as [Fu Bu]. pose proof (FL a i Ha) as Fl.
    pose proof (grown_top i ltac:(lia)) as Top.
    destruct (Beqb (U i i) fzero) eqn:Ez.
    + rewrite Q in *. rewrite Beqb_correct in Ez by (exact Fu || reflexivity). destruct (Req_bool_spec (val (U i i)) (val fzero)) as [E|]; [|discriminate]. change (val fzero) with 0 in E.
      pose proof (abs_le64 y (U i i) Fl Fu Lb) as B. rewrite E, Rabs_R0 in B. lra.
    + destruct (quotient_err y (U i i) (L a i) Fu) as (Fy & U0 & E); [eapply Rle_trans; [exact Bu|eapply Rle_trans; [exact Top|apply bpow_le; lia]]|exact Q|exact Fl|].
      pose proof (abs_le64 y (U i i) Fy Fu Lb) as B. assert (Au : 0 < Rabs (val (U i i))) by (apply Rabs_pos_lt; exact U0).
      assert (V : Rabs (val (L a i)) * Rabs (val (U i i)) <= Rabs (val y) + (((1 + uu) * (1 + uu) - 1) * Rabs (val y) + tiny * Rabs (val (U i i)))).
      { rewrite <- Rabs_mult. replace (val (L a i) * val (U i i)) with ((val (L a i) * val (U i i) - val y) + val y) by ring. eapply Rle_trans; [apply Rabs_triang|]. lra. }
      assert (U3 : (1 + uu) * (1 + uu) - 1 <= eps) by (pose proof uu_pos; nra).
      assert (E10 : eps + tau <= / 1024 / 1024).
      { assert (tau <= eps) by (apply bpow_le; lia). assert (2 * eps <= / 1024 / 1024); [|lra]. unfold eps; change (/ 1024 / 1024) with (/ 1024 * / 1024); change (/ 1024) with (bpow radix2 (-10)); change 2 with (bpow radix2 1). rewrite <- !bpow_plus. apply bpow_le. lia. }
      apply (Rmult_le_reg_r (Rabs (val (U i i)))); [exact Au|]. eapply Rle_trans; [exact V|].
      assert (V2 : ((1 + uu) * (1 + uu) - 1) * Rabs (val y) <= eps * Rabs (val (U i i))) by (apply Rmult_le_compat; try apply Rabs_pos; try assumption; pose proof uu_pos; nra).
      assert (V3 : tiny * Rabs (val (U i i)) <= tau * Rabs (val (U i i))) by (apply Rmult_le_compat_r; lra).
      assert (V4 : (eps + tau) * Rabs (val (U i i)) <= / 1024 / 1024 * Rabs (val (U i i))) by (apply Rmult_le_compat_r; lra). lra.
Qed.
End Factors.

(** ** Specification *)
Definition identity (i j : nat) : R := if Nat.eqb i j then 1 else 0.
(** S X in exact arithmetic *)
Definition times (n : nat) (M X : nat -> nat -> R) (i j : nat) : R := rsum n (fun k => M i k * X k j).

(** ** C117: S times what inverse() returns is the identity up to rounding: the error of entry (i, c) is at most
    2^-38 n s 2.001^n times the sum of the absolute values in column c of the result *)
Theorem C117_residual_partial n S X s : (n <= 100)%nat -> bpow radix2 (-900) <= s <= bpow radix2 300 ->
  (forall i j, (i < n)%nat -> (j < n)%nat -> finite (S i j) = true /\ Rabs (val (S i j)) <= s) ->
  inverse64 n S X -> finite_mat n n X ->
  forall i c, (i < n)%nat -> (c < n)%nat ->
  Rabs (times n (vals S) (vals X) i c - identity i c)
    <= bpow radix2 (-38) * INR n * s * (2001 / 1000) ^ n * rsum n (fun k => Rabs (val (X k c))) + bpow radix2 (-500).
Proof.
  intros Hn Hs FS (L & U & pi & Y & LU & Fw & Bw) FX. pose proof LU as ((Pb & Pi) & HU & HL).
  pose proof small_consts as (e0 & e1 & t0 & ti0 & tt & ue). pose proof (s_pos s Hs) as Sp. pose proof (tau_s s Hs) as Ts. pose proof uu_pos as u0.
  (* everything is finite *)
  assert (Bk : forall i c, (i < n)%nat -> (c < n)%nat -> finite (U i i) = true -> Rabs (val (U i i)) <= bpow radix2 513 ->
     exists z, finite z = true /\ finite (Y i c) = true /\ val (U i i) <> 0 /\
       Rabs (val z - (val (Y i c) - rsum (n - Datatypes.S i) (fun l => val (U i (Datatypes.S i + l)%nat) * val (X (Datatypes.S i + l)%nat c))))
         <= eps * (Rabs (val (Y i c)) + rsum (n - Datatypes.S i) (fun l => Rabs (val (U i (Datatypes.S i + l)%nat)) * Rabs (val (X (Datatypes.S i + l)%nat c)))) + tau /\
       Rabs (val (X i c) * val (U i i) - val z) <= ((1 + uu) * (1 + uu) - 1) * Rabs (val z) + tiny * Rabs (val (U i i))).
  { intros i c Hi Hc Fu Bu. destruct (Bw i c Hi Hc) as (z & Hz & Q). destruct (quotient_err z (U i i) (X i c) Fu Bu Q (FX i c Hi Hc)) as (Fz & U0 & E).
    destruct (minus_sum (n - Datatypes.S i) (Y i c) (fun l => U i (Datatypes.S i + l)%nat) (fun l => X (Datatypes.S i + l)%nat c) z ltac:(lia) Hz Fz) as (FY & _ & E2).
    exists z. repeat split; assumption. }
  assert (FY : forall i c, (i < n)%nat -> (c < n)%nat -> finite (Y i c) = true).
  { intros i c Hi Hc. destruct (Bw i c Hi Hc) as (z & Hz & Q). assert (Fz : finite z = true).
    { pose proof (FX i c Hi Hc) as Fx. destruct Q as [E|E]; rewrite E in Fx.
      - destruct z as [sz|sz| |sz m e B]; try reflexivity; [|destruct (U i i); discriminate Fx].
        destruct (U i i) as [q|q| |q m e B]; try discriminate Fx.
      - apply (mul_inv _ _ Fx). }
    apply (minus_sum (n - Datatypes.S i) (Y i c) (fun l => U i (Datatypes.S i + l)%nat) (fun l => X (Datatypes.S i + l)%nat c) z ltac:(lia) Hz Fz). }
  assert (FL : forall i k, (k < i < n)%nat -> finite (L i k) = true).
  { intros i k Hk. apply (minus_sum i _ (L i) (fun l => Y l 0%nat) (Y i 0%nat) ltac:(lia) (Fw i 0%nat ltac:(lia) ltac:(lia)) (FY i 0%nat ltac:(lia) ltac:(lia))). lia. }
  destruct (factors n S L U pi s Hn Hs FS LU FL n (le_n n)) as [BU BL].
  set (M := grown s n) in *. assert (M0 : 0 < M) by apply (grown_pos s Hs).
  assert (BU' : forall k j, (k <= j < n)%nat -> finite (U k j) = true /\ Rabs (val (U k j)) <= M).
  { intros k j Hk. destruct (BU k j ltac:(lia) ltac:(lia)) as [A B]. split; [exact A|]. eapply Rle_trans; [exact B|]. apply (grown_mono s Hs). lia. }
  assert (Mt : M <= bpow radix2 501) by (apply (grown_top s Hs); lia).
  assert (sM : s <= M). { unfold M, grown. assert (1 <= (2001 / 1000) ^ n) by (apply pow_R1_Rle; lra). nra. }
  assert (BL' : forall a k, (k < a < n)%nat -> Rabs (val (L a k)) <= 1001 / 1000) by (intros a k Hk; eapply Rle_trans; [apply BL; lia|lra]).
  set (T := bpow radix2 (-560)). assert (T0 : 0 < T) by apply bpow_gt_0.
  assert (TT : tau + 3 * tiny * M <= T).
  { apply Rle_trans with (bpow radix2 (-570) + bpow radix2 (-570)).
    - apply Rplus_le_compat; [apply bpow_le; lia|]. apply Rle_trans with (bpow radix2 2 * tiny * bpow radix2 501); [apply Rmult_le_compat; try lra; change (bpow radix2 2) with 4; lra|].
      unfold tiny. rewrite <- !bpow_plus. apply bpow_le. lia.
    - replace (bpow radix2 (-570) + bpow radix2 (-570)) with (bpow radix2 1 * bpow radix2 (-570)) by (change (bpow radix2 1) with 2; ring). unfold T. rewrite <- bpow_plus. apply bpow_le. lia. }
  assert (T1 : T <= eps) by (apply bpow_le; lia).
  assert (U3 : (1 + uu) * (1 + uu) - 1 <= eps / 1) by (nra).
  set (q3 := (1 + uu) * (1 + uu) - 1) in *. assert (q0 : 0 < q3) by (unfold q3; nra). assert (q1 : q3 <= eps) by lra.
  set (l := fun i k => if Nat.ltb k i then val (L i k) else if Nat.eqb k i then 1 else 0).
  set (u := fun k j => if Nat.leb k j then val (U k j) else 0).
  set (N := INR n).
  (* the factorization *)
  assert (Bl : forall i k, (i < n)%nat -> (k < n)%nat -> Rabs (l i k) <= 1001 / 1000).
  { intros i k Hi Hk. unfold l. destruct (Nat.ltb_spec k i); [apply BL'; lia|]. destruct (Nat.eqb k i); [rewrite Rabs_R1|rewrite Rabs_R0]; lra. }
  assert (Bu : forall k j, (k < n)%nat -> (j < n)%nat -> Rabs (u k j) <= M).
  { intros k j Hk Hj. unfold u. destruct (Nat.leb_spec k j); [apply BU'; lia|]. rewrite Rabs_R0. lra. }
  assert (cst : forall m x, rsum m (fun _ => x) = INR m * x) by (intros m x; induction m as [|m IH]; cbn [rsum]; [simpl; ring|rewrite IH, S_INR; ring]).
  assert (EF : forall i j, (i < n)%nat -> (j < n)%nat -> Rabs (val (S (pi i) j) - rsum n (fun k => l i k * u k j)) <= 4 * N * eps * M).
  { intros i j Hi Hj. destruct (FS (pi i) j (Pb i Hi) Hj) as [_ Bs]. assert (N1 : 1 <= N) by (unfold N; change 1 with (INR 1); apply le_INR; lia).
    assert (Ms : forall m, (m <= i)%nat -> (m <= j)%nat -> rsum m (fun k => Rabs (val (L i k)) * Rabs (val (U k j))) <= N * (1001 / 1000 * M)).
    { intros m Hm Hm2. apply Rle_trans with (rsum m (fun _ => 1001 / 1000 * M)).
      - apply rsum_le. intros k Hk. apply Rmult_le_compat; try apply Rabs_pos; [apply BL'; lia|apply BU'; lia].
      - rewrite cst. apply Rmult_le_compat_r; [lra|]. apply le_INR. lia. }
    assert (eM : 0 < eps * M) by (apply Rmult_lt_0_compat; lra). assert (eNM : eps * M <= N * (eps * M)) by (rewrite <- (Rmult_1_l (eps * M)) at 1; apply Rmult_le_compat_r; lra).
    assert (tM : tau <= eps * M) by (eapply Rle_trans; [exact Ts|apply Rmult_le_compat_l; lra]).
    assert (tiM : tiny * M <= / 1024 * (eps * M)).
    { rewrite <- Rmult_assoc. apply Rmult_le_compat_r; [lra|]. unfold tiny, eps. change (/ 1024) with (bpow radix2 (-10)). rewrite <- bpow_plus. apply bpow_le. lia. }
    destruct (le_lt_dec i j) as [Hij|Hij].
    - destruct (minus_sum i (S (pi i) j) (L i) (fun k => U k j) (U i j) ltac:(lia) (HU i j ltac:(lia)) (proj1 (BU' i j ltac:(lia)))) as (_ & _ & E).
      replace (rsum n (fun k => l i k * u k j)) with (rsum i (fun k => val (L i k) * val (U k j)) + val (U i j)).
      + specialize (Ms i ltac:(lia) ltac:(lia)). set (Q := rsum i (fun k => Rabs (val (L i k)) * Rabs (val (U k j)))) in *.
        rewrite Rabs_minus_sym. replace (rsum i (fun k => val (L i k) * val (U k j)) + val (U i j) - val (S (pi i) j)) with (val (U i j) - (val (S (pi i) j) - rsum i (fun k => val (L i k) * val (U k j)))) by ring.
        eapply Rle_trans; [exact E|]. assert (V : eps * (Rabs (val (S (pi i) j)) + Q) <= eps * (M + N * (1001 / 1000 * M))) by (apply Rmult_le_compat_l; lra). lra.
      + rewrite (rsum_cut n (Datatypes.S i)); [|lia|].
        * cbn [rsum]. f_equal.
          { apply rsum_ext. intros k Hk. unfold l, u. destruct (Nat.ltb_spec k i); [|lia]. destruct (Nat.leb_spec k j); [|lia]. reflexivity. }
          { unfold l, u. rewrite Nat.ltb_irrefl, Nat.eqb_refl. destruct (Nat.leb_spec i j); [|lia]. ring. }
        * intros k Hk. unfold l. destruct (Nat.ltb_spec k i); [lia|]. destruct (Nat.eqb_spec k i); [lia|]. ring.
    - destruct (HL i j ltac:(lia)) as (y & Hy & Lb & Q). destruct (BU' j j ltac:(lia)) as [Fu Bu']. pose proof (FL i j ltac:(lia)) as Fl.
      assert (D : finite y = true /\ Rabs (val (L i j) * val (U j j) - val y) <= q3 * Rabs (val y) + tiny * Rabs (val (U j j))).
      { destruct (Bk j 0%nat ltac:(lia) ltac:(lia) Fu) as (_ & _ & _ & U0 & _); [eapply Rle_trans; [exact Bu'|eapply Rle_trans; [exact Mt|apply bpow_le; lia]]|].
        destruct (Beqb (U j j) fzero) eqn:Ez.
        - exfalso. rewrite Beqb_correct in Ez by (exact Fu || reflexivity). destruct (Req_bool_spec (val (U j j)) (val fzero)) as [E|]; [|discriminate]. exact (U0 E).
        - destruct (quotient_err y (U j j) (L i j) Fu) as (Fy & _ & E); [eapply Rle_trans; [exact Bu'|eapply Rle_trans; [exact Mt|apply bpow_le; lia]]|exact Q|exact Fl|]. split; assumption. }
      destruct D as [Fy D]. pose proof (abs_le64 y (U j j) Fy Fu Lb) as By.
      destruct (minus_sum j (S (pi i) j) (L i) (fun k => U k j) y ltac:(lia) Hy Fy) as (_ & _ & E).
      replace (rsum n (fun k => l i k * u k j)) with (rsum j (fun k => val (L i k) * val (U k j)) + val (L i j) * val (U j j)).
      + specialize (Ms j ltac:(lia) ltac:(lia)). set (Q' := rsum j (fun k => Rabs (val (L i k)) * Rabs (val (U k j)))) in *.
        rewrite Rabs_minus_sym. replace (rsum j (fun k => val (L i k) * val (U k j)) + val (L i j) * val (U j j) - val (S (pi i) j)) with ((val (L i j) * val (U j j) - val y) + (val y - (val (S (pi i) j) - rsum j (fun k => val (L i k) * val (U k j))))) by ring.
        eapply Rle_trans; [apply Rabs_triang|]. assert (V : eps * (Rabs (val (S (pi i) j)) + Q') <= eps * (M + N * (1001 / 1000 * M))) by (apply Rmult_le_compat_l; lra).
        assert (V2 : q3 * Rabs (val y) <= / 4 * 3 * (eps * M)).
        { rewrite <- Rmult_assoc. apply Rmult_le_compat; [lra|apply Rabs_pos| |lra]. unfold q3. pose proof uu_val. nra. }
        assert (V3 : tiny * Rabs (val (U j j)) <= tiny * M) by (apply Rmult_le_compat_l; lra). lra.
      + rewrite (rsum_cut n (Datatypes.S j)); [|lia|].
        * cbn [rsum]. f_equal.
          { apply rsum_ext. intros k Hk. unfold l, u. destruct (Nat.ltb_spec k i); [|lia]. destruct (Nat.leb_spec k j); [|lia]. reflexivity. }
          { unfold l, u. destruct (Nat.ltb_spec j i); [|lia]. rewrite Nat.leb_refl. reflexivity. }
        * intros k Hk. unfold u. destruct (Nat.leb_spec k j); [lia|]. ring. }
  (* the two triangular systems *)
  intros r c Hr Hc. set (X1 := rsum n (fun k => Rabs (val (X k c)))).
  assert (X0 : 0 <= X1) by (apply rsum_pos; intros; apply Rabs_pos). assert (N1 : 1 <= N) by (unfold N; change 1 with (INR 1); apply le_INR; lia).
  assert (Xk : forall k, (k < n)%nat -> Rabs (val (X k c)) <= X1).
  { intros k Hk. unfold X1. assert (Sg : forall z, (k < z)%nat -> Rabs (val (X k c)) <= rsum z (fun k => Rabs (val (X k c)))); [|apply (Sg n Hk)].
    induction z as [|z IHz]; intros Hz; [lia|]. cbn [rsum]. assert (P0 : forall y, 0 <= rsum y (fun k => Rabs (val (X k c)))) by (intros; apply rsum_pos; intros; apply Rabs_pos).
    destruct (Nat.eq_dec k z) as [->|D]; [pose proof (P0 z); lra|]. specialize (IHz ltac:(lia)). pose proof (Rabs_pos (val (X z c))). lra. }
  assert (MX0 : 0 <= M * X1) by (apply Rmult_le_pos; lra). assert (eMX0 : 0 <= eps * (M * X1)) by (apply Rmult_le_pos; lra).
  assert (MX : forall k, (k < n)%nat -> rsum n (fun j => Rabs (u k j) * Rabs (val (X j c))) <= M * X1).
  { intros k Hk. unfold X1. rewrite <- rsum_scal. apply rsum_le. intros j Hj. apply Rmult_le_compat_r; [apply Rabs_pos|apply Bu; assumption]. }
  assert (G : forall k, (k < n)%nat -> Rabs (val (Y k c) - rsum n (fun j => u k j * val (X j c))) <= 4 * (eps * (M * X1)) + 2 * T /\ Rabs (val (Y k c)) <= 2 * (M * X1) + 2 * T).
  { intros k Hk. destruct (BU' k k ltac:(lia)) as [Fu Bu'].
    destruct (Bk k c Hk Hc Fu) as (z & Fz & _ & _ & E1 & E2); [eapply Rle_trans; [exact Bu'|eapply Rle_trans; [exact Mt|apply bpow_le; lia]]|].
    assert (Ex : rsum n (fun j => u k j * val (X j c)) = val (U k k) * val (X k c) + rsum (n - Datatypes.S k) (fun l => val (U k (Datatypes.S k + l)%nat) * val (X (Datatypes.S k + l)%nat c))).
    { rewrite (rsum_split n (Datatypes.S k)) by lia. cbn [rsum]. rewrite (rsum_ext k _ (fun _ => 0)), rsum_0 by (intros j Hj; unfold u; destruct (Nat.leb_spec k j); [lia|ring]). rewrite Rplus_0_l. f_equal.
      - unfold u. rewrite Nat.leb_refl. reflexivity.
      - apply rsum_ext. intros j Hj. unfold u. destruct (Nat.leb_spec k (Datatypes.S k + j)); [reflexivity|lia]. }
    assert (Ea : Rabs (val (U k k)) * Rabs (val (X k c)) + rsum (n - Datatypes.S k) (fun l => Rabs (val (U k (Datatypes.S k + l)%nat)) * Rabs (val (X (Datatypes.S k + l)%nat c))) <= M * X1).
    { eapply Rle_trans; [|apply (MX k Hk)]. apply Req_le. rewrite (rsum_split n (Datatypes.S k)) by lia. cbn [rsum]. rewrite (rsum_ext k (fun j => Rabs (u k j) * _) (fun _ => 0)), rsum_0 by (intros j Hj; unfold u; destruct (Nat.leb_spec k j); [lia|rewrite Rabs_R0; ring]). rewrite Rplus_0_l. f_equal.
      - unfold u. rewrite Nat.leb_refl. reflexivity.
      - apply rsum_ext. intros j Hj. unfold u. destruct (Nat.leb_spec k (Datatypes.S k + j)); [reflexivity|lia]. }
    rewrite Ex. set (B := rsum (n - Datatypes.S k) (fun l => Rabs (val (U k (Datatypes.S k + l)%nat)) * Rabs (val (X (Datatypes.S k + l)%nat c)))) in *.
    set (B' := rsum (n - Datatypes.S k) (fun l => val (U k (Datatypes.S k + l)%nat) * val (X (Datatypes.S k + l)%nat c))) in *.
    assert (BB : Rabs B' <= B) by apply rsum_abs2. rewrite <- Rabs_mult in Ea. set (p := val (U k k) * val (X k c)) in *. replace (val (X k c) * val (U k k)) with p in E2 by (unfold p; ring).
    set (y := val (Y k c)) in *. set (w := val z) in *.
    assert (Bw' : Rabs w <= 2 * (Rabs p + tiny * M)).
    { assert (V : Rabs w <= Rabs p + Rabs (p - w)) by (replace w with (p - (p - w)) at 1 by ring; unfold Rminus at 1; eapply Rle_trans; [apply Rabs_triang|rewrite Rabs_Ropp; lra]).
      assert (V2 : tiny * Rabs (val (U k k)) <= tiny * M) by (apply Rmult_le_compat_l; lra). assert (V3 : q3 * Rabs w <= / 2 * Rabs w) by (apply Rmult_le_compat_r; [apply Rabs_pos|lra]). lra. }
    assert (P0 : 0 <= B) by (apply rsum_pos; intros; apply Rmult_le_pos; apply Rabs_pos). pose proof (Rabs_pos p) as Pp. pose proof (Rabs_pos y) as Py.
    assert (V2 : tiny * Rabs (val (U k k)) <= tiny * M) by (apply Rmult_le_compat_l; lra).
    assert (tM0 : 0 < tiny * M) by (apply Rmult_lt_0_compat; lra).
    assert (V4 : q3 * Rabs w <= eps * (2 * Rabs p) + tiny * M).
    { apply Rle_trans with (q3 * (2 * (Rabs p + tiny * M))); [apply Rmult_le_compat_l; lra|].
      assert (q3 * (2 * Rabs p) <= eps * (2 * Rabs p)) by (apply Rmult_le_compat_r; lra). assert (q3 * (2 * (tiny * M)) <= / 2 * (2 * (tiny * M))) by (apply Rmult_le_compat_r; lra). lra. }
    assert (Gk : Rabs (y - (p + B')) <= eps * (Rabs y + 2 * (M * X1)) + T).
    { replace (y - (p + B')) with (- ((w - (y - B')) + (p - w))) by ring. rewrite Rabs_Ropp. eapply Rle_trans; [apply Rabs_triang|].
      assert (V5 : eps * (B + 2 * Rabs p) <= eps * (2 * (M * X1))) by (apply Rmult_le_compat_l; lra). lra. }
    assert (Yk : Rabs y <= M * X1 + Rabs (y - (p + B'))).
    { replace y with ((p + B') + (y - (p + B'))) at 1 by ring. eapply Rle_trans; [apply Rabs_triang|]. pose proof (Rabs_triang p B'). lra. }
    set (g := Rabs (y - (p + B'))) in *. assert (g0 : 0 <= g) by apply Rabs_pos.
    assert (V6 : eps * Rabs y <= eps * (M * X1) + eps * g) by (rewrite <- Rmult_plus_distr_l; apply Rmult_le_compat_l; lra).
    assert (V7 : eps * g <= / 1024 * g) by (apply Rmult_le_compat_r; lra). assert (V8 : eps * (M * X1) <= / 1024 * (M * X1)) by (apply Rmult_le_compat_r; lra).
    split; lra. }
  set (E := fun i => identity (pi i) c).
  assert (Fo : forall i, (i < n)%nat -> Rabs (rsum n (fun k => l i k * val (Y k c)) - E i) <= 4 * N * (eps * (2 * (M * X1) + 2 * T)) + 2 * tau).
  { intros i Hi. destruct (minus_sum i (if Nat.eqb (pi i) c then fone else fzero) (L i) (fun k => Y k c) (Y i c) ltac:(lia) (Fw i c Hi Hc) (FY i c Hi Hc)) as (_ & _ & Q).
    set (ei := (if Nat.eqb (pi i) c then fone else fzero) : f64) in *. assert (Ve : val ei = E i) by (unfold ei, E, identity; destruct (Nat.eqb (pi i) c); [apply one_ok|reflexivity]). rewrite Ve in Q.
    replace (rsum n (fun k => l i k * val (Y k c))) with (rsum i (fun k => val (L i k) * val (Y k c)) + val (Y i c)).
    - set (W := 2 * (M * X1) + 2 * T) in *. assert (W0 : 0 < W) by (unfold W; lra).
      assert (Sm : rsum i (fun k => Rabs (val (L i k)) * Rabs (val (Y k c))) <= N * (1001 / 1000 * W)).
      { apply Rle_trans with (rsum i (fun _ => 1001 / 1000 * W)).
        - apply rsum_le. intros k Hk. apply Rmult_le_compat; try apply Rabs_pos; [apply BL'; lia|apply G; lia].
        - rewrite cst. apply Rmult_le_compat_r; [lra|]. apply le_INR. lia. }
      set (A := rsum i (fun k => Rabs (val (L i k)) * Rabs (val (Y k c)))) in *. set (A' := rsum i (fun k => val (L i k) * val (Y k c))) in *.
      assert (AA : Rabs A' <= A) by apply rsum_abs2. destruct (G i Hi) as [_ Yi]. fold W in Yi. set (y := val (Y i c)) in *.
      replace (A' + y - E i) with (y - (E i - A')) by ring. set (f := Rabs (y - (E i - A'))) in *.
      assert (Ei : Rabs (E i) <= Rabs y + A + f).
      { replace (E i) with (y + (A' - (y - (E i - A')))) by ring. eapply Rle_trans; [apply Rabs_triang|]. unfold Rminus at 1. pose proof (Rabs_triang A' (- (y - (E i - A')))) as V. rewrite Rabs_Ropp in V. fold f in V. lra. }
      assert (f0 : 0 <= f) by apply Rabs_pos. assert (V1 : eps * Rabs (E i) <= eps * (Rabs y + A + f)) by (apply Rmult_le_compat_l; lra).
      assert (V2 : eps * f <= / 1024 * f) by (apply Rmult_le_compat_r; lra). assert (V3 : eps * A <= eps * (N * (1001 / 1000 * W))) by (apply Rmult_le_compat_l; lra). assert (V4 : eps * Rabs y <= eps * W) by (apply Rmult_le_compat_l; lra).
      assert (eW : 0 < eps * W) by (apply Rmult_lt_0_compat; lra). assert (eNW : eps * W <= N * (eps * W)) by (rewrite <- (Rmult_1_l (eps * W)) at 1; apply Rmult_le_compat_r; lra). lra.
    - rewrite (rsum_cut n (Datatypes.S i)); [|lia|].
      + cbn [rsum]. f_equal.
        * apply rsum_ext. intros k Hk. unfold l. destruct (Nat.ltb_spec k i); [reflexivity|lia].
        * unfold l. rewrite Nat.ltb_irrefl, Nat.eqb_refl. ring.
      + intros k Hk. unfold l. destruct (Nat.ltb_spec k i); [lia|]. destruct (Nat.eqb_spec k i); [lia|]. ring. }
  destruct (bInjective_bSurjective (n := n) (f := pi)) as [Sur _]; [intros i Hi; apply Pb; exact Hi|].
  destruct (Sur ltac:(intros a b Ha Hb Eab; apply Pi; assumption) r Hr) as (i & Hi & <-). fold (E i).
  unfold times, vals. specialize (Fo i Hi).
  replace (rsum n (fun k => val (S (pi i) k) * val (X k c)) - E i)
    with (rsum n (fun j => (val (S (pi i) j) - rsum n (fun k => l i k * u k j)) * val (X j c))
        - rsum n (fun k => l i k * (val (Y k c) - rsum n (fun j => u k j * val (X j c))))
        + (rsum n (fun k => l i k * val (Y k c)) - E i)).
  - assert (R1 : Rabs (rsum n (fun j => (val (S (pi i) j) - rsum n (fun k => l i k * u k j)) * val (X j c))) <= 4 * N * eps * M * X1).
    { eapply Rle_trans; [apply rsum_abs2|]. unfold X1. rewrite <- rsum_scal. apply rsum_le. intros j Hj. apply Rmult_le_compat_r; [apply Rabs_pos|]. apply EF; assumption. }
    assert (R2 : Rabs (rsum n (fun k => l i k * (val (Y k c) - rsum n (fun j => u k j * val (X j c))))) <= N * (1001 / 1000 * (4 * (eps * (M * X1)) + 2 * T))).
    { eapply Rle_trans; [apply rsum_abs2|]. unfold N. rewrite <- cst. apply rsum_le. intros k Hk. apply Rmult_le_compat; try apply Rabs_pos; [apply Bl; assumption|apply G; exact Hk]. }
    eapply Rle_trans; [apply Rabs_triang|]. unfold Rminus at 1. eapply Rle_trans; [apply Rplus_le_compat_r, Rabs_triang|]. rewrite Rabs_Ropp.
    assert (E38 : bpow radix2 (-38) = 32 * eps) by (unfold eps; change (-38)%Z with (5 + -43)%Z; rewrite bpow_plus; reflexivity). rewrite E38. fold N. fold X1.
    assert (Z : M * X1 = 1001 / 1000 * (s * (2001 / 1000) ^ n * X1)) by (unfold M, grown; ring).
    assert (N100 : N <= 100) by (unfold N; replace 100 with (INR 100) by (simpl; lra); apply le_INR; exact Hn).
    assert (NT : N * T <= 100 * T) by (apply Rmult_le_compat_r; lra). assert (eT : N * (eps * T) <= / 1024 * (100 * T)).
    { replace (N * (eps * T)) with (eps * (N * T)) by ring. apply Rmult_le_compat; try lra. apply Rmult_le_pos; lra. }
    assert (tT : tau <= T) by (apply bpow_le; lia).
    assert (T5 : 1024 * T <= bpow radix2 (-500)) by (unfold T; change 1024 with (bpow radix2 10); rewrite <- bpow_plus; apply bpow_le; lia).
    set (K := s * (2001 / 1000) ^ n * X1) in *. assert (K0 : 0 <= K) by (unfold K; repeat apply Rmult_le_pos; [lra|apply pow_le; lra|exact X0]). assert (NK : 0 <= N * (eps * K)) by (apply Rmult_le_pos; [lra|apply Rmult_le_pos; [lra|exact K0]]).
    replace (4 * N * eps * M * X1) with (4 * (N * (eps * (M * X1)))) in R1 by ring. replace (32 * eps * N * s * (2001 / 1000) ^ n * X1) with (32 * (N * (eps * K))) by (unfold K; ring).
    replace (4 * N * (eps * (2 * (M * X1) + 2 * T))) with (8 * (N * (eps * (M * X1))) + 8 * (N * (eps * T))) in Fo by ring.
    replace (N * (1001 / 1000 * (4 * (eps * (M * X1)) + 2 * T))) with (4004 / 1000 * (N * (eps * (M * X1))) + 2002 / 1000 * (N * T)) in R2 by field.
    rewrite Z in *. replace (N * (eps * (1001 / 1000 * K))) with (1001 / 1000 * (N * (eps * K))) in * by ring. lra.
  - assert (Sw : rsum n (fun j => rsum n (fun k => l i k * u k j) * val (X j c)) = rsum n (fun k => l i k * rsum n (fun j => u k j * val (X j c)))).
    { rewrite (rsum_ext n _ (fun j => rsum n (fun k => l i k * u k j * val (X j c)))) by (intros j _; rewrite rsum_scal_r; reflexivity). rewrite rsum_swap. apply rsum_ext. intros k _. rewrite <- rsum_scal. apply rsum_ext. intros; ring. }
    rewrite (rsum_ext n (fun j => (val (S (pi i) j) - rsum n (fun k => l i k * u k j)) * val (X j c)) (fun j => val (S (pi i) j) * val (X j c) - rsum n (fun k => l i k * u k j) * val (X j c))) by (intros; ring).
    rewrite (rsum_ext n (fun k => l i k * (val (Y k c) - rsum n (fun j => u k j * val (X j c)))) (fun k => l i k * val (Y k c) - l i k * rsum n (fun j => u k j * val (X j c)))) by (intros; ring).
    rewrite !rsum_minus, Sw. ring.
Qed.

(** hence it is the exact inverse W of S up to rounding, and the gain is the exact gain P C' W up to rounding *)
Definition inverse_error (n : nat) (X : fmat) (s : R) (c : nat) : R :=
  bpow radix2 (-38) * INR n * s * (2001 / 1000) ^ n * rsum n (fun k => Rabs (val (X k c))) + bpow radix2 (-500).
Lemma times_identity n M i c : (c < n)%nat -> times n M identity i c = M i c.
Proof.
  intros Hc. unfold times, identity. rewrite (rsum_ext n _ (fun k => if Nat.eqb k c then M i k else 0)) by (intros k _; destruct (Nat.eqb k c); ring).
  apply (rsum_delta n c (fun k => M i k) Hc).
Qed.
Lemma times_assoc n (A B C : rmat) i j : times n (times n A B) C i j = times n A (times n B C) i j.
Proof.
  unfold times. rewrite (rsum_ext n _ (fun k => rsum n (fun l => A i l * B l k * C k j))) by (intros k _; rewrite rsum_scal_r; reflexivity).
  rewrite rsum_swap. apply rsum_ext. intros l _. rewrite <- rsum_scal. apply rsum_ext. intros; ring.
Qed.
Lemma left_solution n (B W S X : rmat) i c e : (forall a b, (a < n)%nat -> (b < n)%nat -> times n W S a b = identity a b) -> (c < n)%nat ->
  (forall a, (a < n)%nat -> Rabs (times n S X a c - identity a c) <= e) ->
  Rabs (times n B X i c - times n B W i c) <= rsum n (fun k => Rabs (times n B W i k)) * e.
Proof.
  intros HW Hc He.
  assert (E : times n B X i c - times n B W i c = rsum n (fun k => times n B W i k * (times n S X k c - identity k c))).
  { rewrite (rsum_ext n _ (fun k => times n B W i k * times n S X k c - times n B W i k * identity k c)) by (intros; ring). rewrite rsum_minus.
    fold (times n (times n B W) (times n S X) i c). fold (times n (times n B W) identity i c). rewrite times_identity by exact Hc. f_equal.
    rewrite times_assoc. unfold times at 1 2. apply rsum_ext. intros k Hk. f_equal. rewrite <- times_assoc.
    unfold times at 1. rewrite (rsum_ext n _ (fun l => if Nat.eqb l k then X l c else 0)).
    - symmetry. apply (rsum_delta n k (fun l => X l c) Hk).
    - intros l Hl. rewrite (HW k l Hk Hl). unfold identity. rewrite Nat.eqb_sym. destruct (Nat.eqb l k); ring. }
  rewrite E. eapply Rle_trans; [apply rsum_abs2|]. rewrite <- rsum_scal_r. apply rsum_le. intros k Hk. apply Rmult_le_compat_l; [apply Rabs_pos|]. apply He. exact Hk.
Qed.
Theorem C117_inverse_partial n S X s W : (n <= 100)%nat -> bpow radix2 (-900) <= s <= bpow radix2 300 ->
  (forall i j, (i < n)%nat -> (j < n)%nat -> finite (S i j) = true /\ Rabs (val (S i j)) <= s) ->
  (forall i j, (i < n)%nat -> (j < n)%nat -> times n W (vals S) i j = identity i j) ->
  inverse64 n S X -> finite_mat n n X ->
  forall i c, (i < n)%nat -> (c < n)%nat ->
  Rabs (val (X i c) - W i c) <= rsum n (fun k => Rabs (W i k)) * inverse_error n X s c.
Proof.
  intros Hn Hs FS HW H FX i c Hi Hc. pose proof (C117_residual_partial n S X s Hn Hs FS H FX) as R.
  assert (I : forall Z : rmat, forall b, times n identity Z i b = Z i b).
  { intros Z b. unfold times, identity. rewrite (rsum_ext n _ (fun k => if Nat.eqb k i then Z k b else 0)); [apply (rsum_delta n i (fun k => Z k b) Hi)|].
    intros k _. rewrite Nat.eqb_sym. destruct (Nat.eqb k i); ring. }
  pose proof (left_solution n identity W (vals S) (vals X) i c (inverse_error n X s c) HW Hc ltac:(intros a Ha; apply R; assumption)) as Q.
  rewrite !I in Q. rewrite (rsum_ext n _ (fun k => Rabs (W i k))) in Q by (intros k _; rewrite I; reflexivity). exact Q.
Qed.
(** the gain of a Kalman filter or EKF, with the inverse it computes: S the innovation covariance it computed, W the exact inverse of S *)
Theorem C117_gain_partial n k C cov S inv K s W : (k <= 100)%nat -> bpow radix2 (-900) <= s <= bpow radix2 300 ->
  (forall i j, (i < k)%nat -> (j < k)%nat -> finite (S i j) = true /\ Rabs (val (S i j)) <= s) ->
  (forall i j, (i < k)%nat -> (j < k)%nat -> times k W (vals S) i j = identity i j) ->
  inverse64 k S inv -> finite_mat k k inv -> gain n k C cov inv K ->
  forall i a, (i < n)%nat -> (a < k)%nat -> finite (K i a) = true ->
  let PC := fun i b => rsum n (fun l => vals cov i l * vals C b l) in
  Rabs (val (K i a) - times k PC W i a) <= rsum k (fun b => Rabs (times k PC W i b)) * inverse_error k inv s a
    + (((1 + bpow radix2 (-53)) ^ (k + n) - 1) * rsum k (fun b => rsum n (fun l => mags cov i l * mags C b l) * mags inv b a)
       + bpow radix2 (-1075) * (1 + bpow radix2 (-53)) ^ (k + n) * (INR n * rsum k (fun b => mags inv b a) + INR k)).
Proof.
  intros Hk Hs FS HW H FX HG i a Hi Ha FK PC. pose proof (C117_residual_partial k S inv s Hk Hs FS H FX) as R.
  pose proof (C110_gain_partial n k C cov inv K i a HG Hi Ha FK) as G.
  pose proof (left_solution k PC W (vals S) (vals inv) i a (inverse_error k inv s a) HW Ha ltac:(intros b Hb; apply R; assumption)) as Q.
  unfold times at 1 in Q. fold (PC i) in G.
  eapply Rle_trans; [apply (Rabs_step _ (rsum k (fun b => PC i b * vals inv b a)))|]. rewrite Rplus_comm. apply Rplus_le_compat; [exact Q|exact G].
Qed.

(** one measurement: no overflow either *)
Theorem C117_one_partial S X : finite (S 0%nat 0%nat) = true -> bpow radix2 (-300) <= Rabs (val (S 0%nat 0%nat)) <= bpow radix2 300 -> inverse64 1 S X ->
  finite (X 0%nat 0%nat) = true /\ Rabs (val (S 0%nat 0%nat) * val (X 0%nat 0%nat) - 1) <= bpow radix2 (-35).
Proof.
  intros FS HS H. pose proof H as (L & U & pi & Y & ((Pb & _) & HU & _) & Fw & Bw). pose proof small_consts as (e0 & e1 & t0 & ti0 & tt & ue).
  assert (P0 : pi 0%nat = 0%nat) by (specialize (Pb 0%nat ltac:(lia)); lia).
  set (a := S 0%nat 0%nat) in *.
  assert (sz : forall x y, finite x = true -> Rabs (val x) <= bpow radix2 300 -> sums [(fone, x)] y -> finite y = true /\ Rabs (val y - val x) <= eps * Rabs (val x) + tau).
  { intros x y Fx Bx Hs. assert (F : finite y = true).
    { apply (sums_finite _ _ Hs).
      - constructor; [split; [reflexivity|exact Fx]|constructor].
      - unfold bound. cbn [mag length fst snd]. rewrite (proj2 one_ok), Rmult_1_l, Rplus_0_r. pose proof (grow_small 1 ltac:(lia)) as G. fold eps in G. pose proof (grow_ge1 1) as G1. pose proof (Rabs_pos (val x)).
        assert (Q : grow 1 * Rabs (val x) <= 2 * bpow radix2 300) by (apply Rmult_le_compat; lra). assert (Q2 : INR 1 * tiny * grow 1 <= 1 * tau * 2) by (simpl INR; apply Rmult_le_compat; lra).
        assert (tau <= bpow radix2 300) by (apply bpow_le; lia). apply Rle_trans with (bpow radix2 2 * bpow radix2 300); [change (bpow radix2 2) with 4; lra|]. rewrite <- bpow_plus. apply bpow_le. lia. }
    split; [exact F|]. destruct (minus_sum 0 x (fun _ => fzero) (fun _ => fzero) y ltac:(lia) Hs F) as (_ & _ & E). cbn [rsum] in E. rewrite Rminus_0_r, Rplus_0_r in E. exact E. }
  assert (ta : tau <= / 1024 * Rabs (val a)).
  { apply Rle_trans with (/ 1024 * bpow radix2 (-300)); [|apply Rmult_le_compat_l; lra]. unfold tau. change (/ 1024) with (bpow radix2 (-10)). rewrite <- bpow_plus. apply bpow_le. lia. }
  assert (Aa : 0 < Rabs (val a)) by (eapply Rlt_le_trans; [apply (bpow_gt_0 radix2 (-300))|apply HS]).
  assert (ea : eps * Rabs (val a) <= / 1024 * Rabs (val a)) by (apply Rmult_le_compat_r; lra).
  specialize (HU 0%nat 0%nat ltac:(lia)). unfold lu64_rest in HU. rewrite P0 in HU. cbn [pairs map seq] in HU. fold a in HU.
  destruct (sz a (U 0%nat 0%nat) FS (proj2 HS) HU) as [FU EU]. set (u := U 0%nat 0%nat) in *.
  assert (Ul : / 2 * Rabs (val a) <= Rabs (val u)).
  { replace (val u) with (val a - (val a - val u)) by ring. pose proof (Rabs_triang_inv (val a) (val a - val u)) as Q. rewrite (Rabs_minus_sym (val a) (val u)) in Q. lra. }
  assert (Uu : Rabs (val u) <= 2 * Rabs (val a)).
  { replace (val u) with ((val u - val a) + val a) by ring. eapply Rle_trans; [apply Rabs_triang|]. lra. }
  specialize (Fw 0%nat 0%nat ltac:(lia) ltac:(lia)). rewrite P0 in Fw. cbn [pairs map seq Nat.eqb] in Fw.
  assert (o1 : Rabs (val fone) <= bpow radix2 300) by (rewrite (proj2 one_ok), Rabs_R1; change 1 with (bpow radix2 0); apply bpow_le; lia).
  destruct (sz fone (Y 0%nat 0%nat) eq_refl o1 Fw) as [FY EY]. rewrite (proj2 one_ok), Rabs_R1 in EY. set (y := Y 0%nat 0%nat) in *.
  assert (tau1 : tau <= / 1024) by (unfold tau; change (/ 1024) with (bpow radix2 (-10)); apply bpow_le; lia).
  assert (Yb : Rabs (val y) <= 2) by (apply Rabs_le_inv in EY; apply Rabs_le; lra).
  assert (Y1 : Rabs (val y) <= bpow radix2 300) by (eapply Rle_trans; [exact Yb|]; change 2 with (bpow radix2 1); apply bpow_le; lia).
  destruct (Bw 0%nat 0%nat ltac:(lia) ltac:(lia)) as (z & Hz & Q). cbn [Nat.sub pairs map seq] in Hz. fold y in Hz. fold u in Q.
  destruct (sz y z FY Y1 Hz) as [Fz Ez].
  assert (Zb : Rabs (val z) <= 4).
  { replace (val z) with ((val z - val y) + val y) by ring. eapply Rle_trans; [apply Rabs_triang|]. assert (eps * Rabs (val y) <= / 1024 * 2) by (apply Rmult_le_compat; try lra; apply Rabs_pos). lra. }
  assert (u0 : val u <> 0) by (intros E; rewrite E, Rabs_R0 in Ul; lra).
  assert (Iu : Rabs (/ val u) <= bpow radix2 301).
  { rewrite Rabs_inv. replace (bpow radix2 301) with (/ bpow radix2 (-301)) by (rewrite <- bpow_opp; reflexivity). apply Rinv_le_contravar; [apply bpow_gt_0|].
    eapply Rle_trans; [|exact Ul]. apply Rle_trans with (/ 2 * bpow radix2 (-300)); [|apply Rmult_le_compat_l; lra]. change (/ 2) with (bpow radix2 (-1)). rewrite <- bpow_plus. apply bpow_le. lia. }
  assert (FX : finite (X 0%nat 0%nat) = true).
  { destruct Q as [E|E]; rewrite E.
    - apply (div_ok z u Fz u0). unfold Rdiv. rewrite Rabs_mult. apply Rle_trans with (bpow radix2 2 * bpow radix2 301); [apply Rmult_le_compat; try apply Rabs_pos; [exact Zb|exact Iu]|]. rewrite <- bpow_plus. apply bpow_le. lia.
    - assert (Eu : val fone / val u = / val u) by (rewrite (proj2 one_ok); unfold Rdiv; ring).
      destruct (div_ok fone u (proj1 one_ok) u0) as [F1 V1]; [rewrite Eu; eapply Rle_trans; [exact Iu|apply bpow_le; lia]|].
      apply (mul_ok z _ Fz F1). rewrite V1, Eu, Rabs_mult.
      assert (Rr : Rabs (rnd64 (/ val u)) <= bpow radix2 302).
      { pose proof (rnd_err (/ val u)) as E1. pose proof uu_pos. pose proof uu_val. assert (Bq : uu * Rabs (/ val u) <= / 4 * bpow radix2 301) by (apply Rmult_le_compat; [lra|apply Rabs_pos|rewrite H1; lra|exact Iu]).
        assert (tb : tiny <= / 4 * bpow radix2 301) by (unfold tiny; change (/ 4) with (bpow radix2 (-2)); rewrite <- bpow_plus; apply bpow_le; lia).
        replace (rnd64 (/ val u)) with ((rnd64 (/ val u) - / val u) + / val u) by ring. eapply Rle_trans; [apply Rabs_triang|].
        change 302%Z with (1 + 301)%Z. rewrite bpow_plus. change (bpow radix2 1) with 2. pose proof (bpow_gt_0 radix2 301). lra. }
      apply Rle_trans with (bpow radix2 2 * bpow radix2 302); [apply Rmult_le_compat; try apply Rabs_pos; [exact Zb|exact Rr]|]. rewrite <- bpow_plus. apply bpow_le. lia. }
  split; [exact FX|].
  assert (R := C117_residual_partial 1 S X (Rabs (val a)) ltac:(lia)). cbv zeta in R.
  specialize (R ltac:(split; [eapply Rle_trans; [|apply HS]; apply bpow_le; lia|apply HS])).
  specialize (R ltac:(intros i j Hi Hj; assert (i = 0%nat) by lia; assert (j = 0%nat) by lia; subst; fold a; split; [exact FS|lra])).
  specialize (R H ltac:(intros i j Hi Hj; assert (i = 0%nat) by lia; assert (j = 0%nat) by lia; subst; exact FX) 0%nat 0%nat ltac:(lia) ltac:(lia)).
  unfold times, vals, identity in R. cbn [rsum Nat.eqb pow INR] in R. fold a in R. set (x := val (X 0%nat 0%nat)) in *.
  rewrite Rplus_0_l in R. eapply Rle_trans; [exact R|].
  assert (Ex : Rabs (val a) * Rabs x <= 2).
  { rewrite <- Rabs_mult. assert (V : Rabs (val a * x) <= 1 + Rabs (val a * x - 1)) by (replace (val a * x) with (1 + (val a * x - 1)) at 1 by ring; eapply Rle_trans; [apply Rabs_triang|rewrite Rabs_R1; lra]).
    assert (E38 : bpow radix2 (-38) <= / 1024) by (change (/ 1024) with (bpow radix2 (-10)); apply bpow_le; lia). assert (E50 : bpow radix2 (-500) <= / 1024) by (change (/ 1024) with (bpow radix2 (-10)); apply bpow_le; lia).
    rewrite Rplus_0_l in R. assert (V2 : bpow radix2 (-38) * 1 * Rabs (val a) * (2001 / 1000 * 1) * Rabs x <= / 1024 * (2001 / 1000 * Rabs (val a * x))).
    { rewrite Rabs_mult. replace (bpow radix2 (-38) * 1 * Rabs (val a) * (2001 / 1000 * 1) * Rabs x) with (bpow radix2 (-38) * (2001 / 1000 * (Rabs (val a) * Rabs x))) by ring.
      apply Rmult_le_compat_r; [|exact E38]. pose proof (Rmult_le_pos _ _ (Rabs_pos (val a)) (Rabs_pos x)). lra. } lra. }
  replace (bpow radix2 (-38) * 1 * Rabs (val a) * (2001 / 1000 * 1) * (0 + Rabs x)) with (bpow radix2 (-38) * (2001 / 1000 * (Rabs (val a) * Rabs x))) by ring.
  assert (E50 : bpow radix2 (-500) <= bpow radix2 (-38)) by (apply bpow_le; lia). change (-35)%Z with (3 + -38)%Z. rewrite bpow_plus. change (bpow radix2 3) with 8.
  pose proof (bpow_gt_0 radix2 (-38)). assert (bpow radix2 (-38) * (2001 / 1000 * (Rabs (val a) * Rabs x)) <= bpow radix2 (-38) * 5) by (apply Rmult_le_compat_l; lra). lra.
Qed.

(** ** C117 as a user would want it, and why it fails *)
Definition C117_claim : Prop := forall n S X, (1 <= n)%nat -> symmetric64 n S -> positive_definite64 n S -> inverse64 n S X ->
  finite_mat n n X /\ forall i, (i < n)%nat -> 0 < val (X i i).
(** the elimination of a 2 x 2 matrix without a row exchange, operations in the order of the source *)
Definition lu2_l (a c : f64) : f64 := fdiv64 c a.
Definition lu2_u (a b c d : f64) : f64 := fadd64 d (fmul64 (fopp64 (lu2_l a c)) b).
Definition lu2_Y (a c : f64) : fmat := mat2 fone fzero (fadd64 fzero (fmul64 (fopp64 (lu2_l a c)) fone)) (fadd64 fone (fmul64 (fopp64 (lu2_l a c)) fzero)).
Definition lu2_X (a b c d : f64) : fmat :=
  let x1 j := fdiv64 (lu2_Y a c 1%nat j) (lu2_u a b c d) in
  let x0 j := fdiv64 (fadd64 (lu2_Y a c 0%nat j) (fmul64 (fopp64 b) (x1 j))) a in
  mat2 (x0 0%nat) (x0 1%nat) (x1 0%nat) (x1 1%nat).
Lemma two i : (i < 2)%nat -> i = 0%nat \/ i = 1%nat. Proof. lia. Qed.
Lemma inverse2 a b c d : Bleb (fabs64 c) (fabs64 a) = true -> Beqb a fzero = false -> inverse64 2 (mat2 a b c d) (lu2_X a b c d).
Proof.
  intros Piv Nz. exists (mat2 fone fzero (lu2_l a c) fone), (mat2 a b fzero (lu2_u a b c d)), (fun i => i), (lu2_Y a c). split; [|split].
  - split; [split; intros; assumption|]. split.
    + intros i j Hij. unfold lu64_rest. destruct (two i ltac:(lia)) as [->| ->], (two j ltac:(lia)) as [->| ->]; try lia; cbn [mat2 pairs map seq]; try apply sum_one.
      apply (sum_add [_] [_]); [apply sum_one|apply sum_prod].
    + intros i j Hij. assert (i = 1%nat) by lia. assert (j = 0%nat) by lia. subst. exists c. unfold lu64_rest. cbn [mat2 pairs map seq]. split; [apply sum_one|]. split; [exact Piv|]. rewrite Nz. left. reflexivity.
  - intros i j Hi Hj. destruct (two i Hi) as [->| ->], (two j Hj) as [->| ->]; cbn [mat2 pairs map seq Nat.eqb lu2_Y]; try apply sum_one;
      apply (sum_add [_] [_]); try apply sum_one; apply sum_prod.
  - intros i j Hi Hj. destruct (two i Hi) as [->| ->].
    + exists (fadd64 (lu2_Y a c 0%nat j) (fmul64 (fopp64 b) (lu2_X a b c d 1%nat j))). cbn [Nat.sub pairs map seq Nat.add]. split.
      * apply (sum_add [_] [_]); [apply sum_one|apply sum_prod].
      * left. destruct (two j Hj) as [->| ->]; reflexivity.
    + exists (lu2_Y a c 1%nat j). cbn [Nat.sub pairs map seq]. split; [apply sum_one|]. left. destruct (two j Hj) as [->| ->]; reflexivity.
Qed.
(** three Fibonacci numbers: the determinant is 1, the computed second pivot is negative *)
Definition fib_S : fmat := mat2 (fz 1134903170) (fz 701408733) (fz 701408733) (fz 433494437).
Definition fib_X : fmat := lu2_X (fz 1134903170) (fz 701408733) (fz 701408733) (fz 433494437).
Lemma fib_inverse : inverse64 2 fib_S fib_X.
Proof. apply inverse2; vm_compute; reflexivity. Qed.
Lemma fib_symmetric : symmetric64 2 fib_S.
Proof. intros i j Hi Hj. destruct (two i Hi) as [->| ->], (two j Hj) as [->| ->]; (split; [vm_compute; reflexivity|reflexivity]). Qed.
Lemma fib_positive : positive_definite64 2 fib_S.
Proof.
  intros v (i & Hi & Nv). cbn [rsum fib_S mat2]. rewrite !fz_val by (vm_compute; discriminate). set (x := v 0%nat) in *. set (y := v 1%nat) in *.
  assert (N : x <> 0 \/ y <> 0) by (destruct (two i Hi) as [->| ->]; [left|right]; exact Nv).
  assert (Q : 0 < (1134903170 * x + 701408733 * y) * (1134903170 * x + 701408733 * y) + y * y).
  { pose proof (Rle_0_sqr (1134903170 * x + 701408733 * y)) as P1. unfold Rsqr in P1. destruct (Req_dec y 0) as [E|E].
    - rewrite E in *. assert (X0 : x <> 0) by tauto. assert (0 < x * x) by (apply Rsqr_pos_lt; exact X0). nra.
    - assert (0 < y * y) by (apply Rsqr_pos_lt; exact E). lra. }
  apply (Rmult_lt_reg_l 1134903170); [lra|]. lra.
Qed.
(** the variance in the second diagonal entry of inverse() is negative (exactly it is 1134903170) *)
Lemma fib_negative : finite_mat 2 2 fib_X /\ val (fib_X 1%nat 1%nat) < 0.
Proof.
  split; [intros i j Hi Hj; destruct (two i Hi) as [->| ->], (two j Hj) as [->| ->]; vm_compute; reflexivity|].
  assert (F : finite (fib_X 1%nat 1%nat) = true) by (vm_compute; reflexivity). assert (L : Bltb (fib_X 1%nat 1%nat) fzero = true) by (vm_compute; reflexivity).
  rewrite (Bltb_correct 53 1024 _ fzero F eq_refl) in L. destruct (Rlt_bool_spec (B2R (fib_X 1%nat 1%nat)) (B2R fzero)) as [H|]; [exact H|discriminate].
Qed.
Theorem C117_refuted : ~ C117_claim.
Proof.
  intros C. destruct (C 2%nat fib_S fib_X ltac:(lia) fib_symmetric fib_positive fib_inverse) as [_ P]. pose proof (P 1%nat ltac:(lia)). pose proof (proj2 fib_negative). lra.
Qed.

(** ** The hypotheses of the bounds are met by a well conditioned matrix and by the one above *)
Definition ok_S : fmat := mat2 (fz 4) (fz 1) (fz 1) (fz 3).
Example C117_nonvacuous : inverse64 2 ok_S (lu2_X (fz 4) (fz 1) (fz 1) (fz 3)) /\ finite_mat 2 2 (lu2_X (fz 4) (fz 1) (fz 1) (fz 3)) /\ symmetric64 2 ok_S /\
  (forall i j, (i < 2)%nat -> (j < 2)%nat -> finite (ok_S i j) = true /\ Rabs (val (ok_S i j)) <= 4) /\
  exists W, forall i j, (i < 2)%nat -> (j < 2)%nat -> times 2 W (vals ok_S) i j = identity i j.
Proof.
  split; [apply inverse2; vm_compute; reflexivity|]. split; [intros i j Hi Hj; destruct (two i Hi) as [->| ->], (two j Hj) as [->| ->]; vm_compute; reflexivity|].
  split; [intros i j Hi Hj; destruct (two i Hi) as [->| ->], (two j Hj) as [->| ->]; (split; [vm_compute; reflexivity|reflexivity])|]. split.
  - intros i j Hi Hj. destruct (two i Hi) as [->| ->], (two j Hj) as [->| ->]; cbn [ok_S mat2]; (split; [vm_compute; reflexivity|rewrite fz_val by (vm_compute; discriminate); rewrite Rabs_pos_eq; lra]).
  - exists (fun i j => match i, j with 0%nat, 0%nat => 3 / 11 | 0%nat, _ => - 1 / 11 | _, 0%nat => - 1 / 11 | _, _ => 4 / 11 end). intros i j Hi Hj.
    destruct (two i Hi) as [->| ->], (two j Hj) as [->| ->]; unfold times, vals, identity; cbn [rsum ok_S mat2 Nat.eqb]; rewrite !fz_val by (vm_compute; discriminate); field.
Qed.
