(** Matrix computations of the Kalman filters in double arithmetic (IEEE binary64, round to nearest
    even), whatever order Eigen adds the terms in and whether or not it uses fused multiply-add:
    [sums l c] says that c is a value a program may get for the sum of the products of the pairs in l. *)
From Coq Require Import ZArith Reals Lra Lia Bool List Permutation.
From Flocq Require Import Core IEEE754.BinarySingleNaN Relative Plus_error.
From Verif Require Import Outcome FB_Model FloatTime AngleFloat KF_Float.
Import ListNotations.
Open Scope R_scope.

Definition ffma64 : f64 -> f64 -> f64 -> f64 := Bfma mode_NE.
(** [sum_one]: a term that is not a product; [sum_none]: an accumulator that starts at 0 *)
Inductive sums : list (f64 * f64) -> f64 -> Prop :=
| sum_none : sums [] fzero
| sum_one a : sums [(fone, a)] a
| sum_prod a b : sums [(a, b)] (fmul64 a b)
| sum_fma a b l c : sums l c -> sums ((a, b) :: l) (ffma64 a b c)
| sum_add l l' c c' : sums l c -> sums l' c' -> sums (l ++ l') (fadd64 c c')
| sum_order l l' c : Permutation l l' -> sums l c -> sums l' c.

(** ** Error analysis *)
Fixpoint ex (l : list (f64 * f64)) : R := match l with [] => 0 | p :: l => val (fst p) * val (snd p) + ex l end.
Fixpoint mag (l : list (f64 * f64)) : R := match l with [] => 0 | p :: l => Rabs (val (fst p) * val (snd p)) + mag l end.
Definition tiny : R := bpow radix2 (-1075).
Definition grow (n : nat) : R := (1 + uu) ^ n.

Lemma tiny_pos : 0 < tiny. Proof. apply bpow_gt_0. Qed.
Lemma uu_pos : 0 < uu. Proof. apply bpow_gt_0. Qed.
Lemma grow_ge1 n : 1 <= grow n.
Proof. apply pow_R1_Rle. pose proof uu_pos. lra. Qed.
Lemma grow_S n : grow (S n) = (1 + uu) * grow n. Proof. reflexivity. Qed.
Lemma grow_le n m : (n <= m)%nat -> grow n <= grow m.
Proof. intros H. apply Rle_pow; [pose proof uu_pos; lra|exact H]. Qed.
Lemma grow_add n m : grow (n + m) = grow n * grow m.
Proof. apply pow_add. Qed.
Lemma mag_pos l : 0 <= mag l.
Proof. induction l as [|p l IH]; cbn [app ex mag]; [lra|]. pose proof (Rabs_pos (val (fst p) * val (snd p))). lra. Qed.
Lemma ex_app l l' : ex (l ++ l') = ex l + ex l'.
Proof. induction l as [|p l IH]; cbn [app ex mag]; [lra|]. rewrite IH. lra. Qed.
Lemma mag_app l l' : mag (l ++ l') = mag l + mag l'.
Proof. induction l as [|p l IH]; cbn [app ex mag]; [lra|]. rewrite IH. lra. Qed.
Lemma ex_perm l l' : Permutation l l' -> ex l = ex l'.
Proof. induction 1; cbn [ex mag]; lra. Qed.
Lemma mag_perm l l' : Permutation l l' -> mag l = mag l'.
Proof. induction 1; cbn [ex mag]; lra. Qed.
Lemma ex_mag l : Rabs (ex l) <= mag l.
Proof.
  induction l as [|p l IH]; simpl; [rewrite Rabs_R0; lra|]. eapply Rle_trans; [apply Rabs_triang|]. lra.
Qed.

Lemma rnd_err x : Rabs (rnd64 x - x) <= uu * Rabs x + tiny.
Proof.
  destruct (error_N_FLT radix2 (-1074) 53 eq_refl (fun n => negb (Z.even n)) x) as (e & d & He & Hd & _ & Er).
  change (round radix2 (FLT_exp (-1074) 53) (Znearest (fun n => negb (Z.even n))) x) with (rnd64 x) in Er. rewrite Er.
  assert (Eu : / 2 * bpow radix2 (- (53) + 1) = uu) by (unfold uu; change (- (53) + 1)%Z with (-53 + 1)%Z; rewrite bpow_plus; change (bpow radix2 1) with 2; field).
  assert (Et : / 2 * bpow radix2 (-1074) = tiny) by (unfold tiny; change (-1074)%Z with (-1075 + 1)%Z; rewrite bpow_plus; change (bpow radix2 1) with 2; field).
  rewrite Eu in He. rewrite Et in Hd. replace (x * (1 + e) + d - x) with (e * x + d) by ring.
  eapply Rle_trans; [apply Rabs_triang|]. rewrite Rabs_mult. apply Rplus_le_compat; [|exact Hd].
  apply Rmult_le_compat_r; [apply Rabs_pos|exact He].
Qed.
Lemma rnd_err_plus x y : fmt64 x -> fmt64 y -> Rabs (rnd64 (x + y) - (x + y)) <= uu * Rabs (x + y).
Proof.
  intros Fx Fy. destruct (FLT_plus_error_N_ex radix2 (-1074) 53 (fun n => negb (Z.even n)) x y Fx Fy) as (e & He & Er).
  change (round radix2 (FLT_exp (-1074) 53) (Znearest (fun n => negb (Z.even n))) (x + y)) with (rnd64 (x + y)) in Er. rewrite Er.
  replace ((x + y) * (1 + e) - (x + y)) with (e * (x + y)) by ring. rewrite Rabs_mult. apply Rmult_le_compat_r; [apply Rabs_pos|].
  eapply Rle_trans; [exact He|]. assert (Eu : u_ro radix2 53 = uu).
  { unfold u_ro, uu. change (- (53) + 1)%Z with (-53 + 1)%Z. rewrite bpow_plus. change (bpow radix2 1) with 2. field. }
  rewrite Eu. pose proof uu_pos. unfold Rdiv. rewrite <- (Rmult_1_r uu) at 3. apply Rmult_le_compat_l; [lra|].
  rewrite <- Rinv_1. apply Rinv_le_contravar; lra.
Qed.

(** a finite result comes from finite operands and did not overflow *)
Lemma add_inv a b : finite (fadd64 a b) = true -> finite a = true /\ finite b = true /\ val (fadd64 a b) = rnd64 (val a + val b).
Proof.
  intros H. assert (Fa : finite a = true /\ finite b = true).
  { destruct a as [s|s| |s m e B], b as [s'|s'| |s' m' e' B']; try (split; reflexivity); try discriminate H; destruct s, s'; discriminate H. }
  destruct Fa as [Fa Fb]. split; [exact Fa|]. split; [exact Fb|]. destruct (fadd_cases a b Fa Fb) as [(_ & E)|(E & _)]; [exact E|]. rewrite E in H. discriminate H.
Qed.
Lemma sf_finite (x : f64) y : B2SF x = y -> is_finite_SF y = finite x.
Proof. intros <-. apply is_finite_SF_B2SF. Qed.
Lemma mul_inv a b : finite (fmul64 a b) = true -> finite a = true /\ finite b = true /\ val (fmul64 a b) = rnd64 (val a * val b).
Proof.
  intros H. assert (Fa : finite a = true /\ finite b = true).
  { destruct a as [s|s| |s m e B], b as [s'|s'| |s' m' e' B']; try (split; reflexivity); discriminate H. }
  destruct Fa as [Fa Fb]. split; [exact Fa|]. split; [exact Fb|].
  pose proof (Bmult_correct 53 1024 prec64_gt_0 prec64_lt mode_NE a b) as C. simpl round_mode in C. revert C.
  case Rlt_bool_spec; intros Hr C; [exact (proj1 C)|]. apply sf_finite in C. unfold fmul64 in H. rewrite H in C. discriminate C.
Qed.
Lemma fma_inv a b c : finite (ffma64 a b c) = true ->
  finite a = true /\ finite b = true /\ finite c = true /\ val (ffma64 a b c) = rnd64 (val a * val b + val c).
Proof.
  intros H. assert (Fa : finite a = true /\ finite b = true /\ finite c = true).
  { destruct a as [s|s| |s m e B], b as [s'|s'| |s' m' e' B'], c as [s2|s2| |s2 m2 e2 B2]; try (repeat split; reflexivity); try discriminate H; destruct s, s', s2; discriminate H. }
  destruct Fa as (Fa & Fb & Fc). repeat (split; [assumption|]).
  pose proof (Bfma_correct 53 1024 prec64_gt_0 prec64_lt mode_NE a b c Fa Fb Fc) as C. simpl round_mode in C. cbv zeta in C. revert C.
  case Rlt_bool_spec; intros Hr C; [exact (proj1 C)|]. apply sf_finite in C. unfold ffma64 in H. rewrite H in C. discriminate C.
Qed.

Definition all_finite (l : list (f64 * f64)) : Prop := Forall (fun p => finite (fst p) = true /\ finite (snd p) = true) l.
Definition near (l : list (f64 * f64)) (c : R) : Prop := Rabs (c - ex l) <= (grow (length l) - 1) * mag l + INR (length l) * tiny * grow (length l).

Lemma Rabs_step a b c : Rabs (a - c) <= Rabs (a - b) + Rabs (b - c).
Proof. replace (a - c) with ((a - b) + (b - c)) by ring. apply Rabs_triang. Qed.

Theorem sums_error l c : sums l c -> finite c = true -> all_finite l /\ near l (val c).
Proof.
  pose proof uu_pos as U. pose proof tiny_pos as T.
  induction 1 as [|a|a b|a b l c H IH|l l' c c' H IH H' IH'|l l' c Hp H IH]; intros F.
  - split; [constructor|]. unfold near. simpl. rewrite Rminus_0_r, Rabs_R0. lra.
  - split; [constructor; [split; [reflexivity|exact F]|constructor]|]. unfold near. cbn [length ex mag fst snd].
    rewrite (proj2 one_ok). replace (val a - (1 * val a + 0)) with 0 by ring. rewrite Rabs_R0.
    pose proof (grow_ge1 1). pose proof (Rabs_pos (1 * val a)). simpl INR. apply Rplus_le_le_0_compat; apply Rmult_le_pos; lra.
  - destruct (mul_inv a b F) as (Fa & Fb & V). split; [constructor; [split; assumption|constructor]|]. unfold near. cbn [length ex mag fst snd]. rewrite V, !Rplus_0_r.
    eapply Rle_trans; [apply rnd_err|]. change (grow 1) with ((1 + uu) * 1). simpl INR. nra.
  - destruct (fma_inv a b c F) as (Fa & Fb & Fc & V). destruct (IH Fc) as (Fl & N). split; [constructor; [split; assumption|exact Fl]|].
    unfold near in *. cbn [length ex mag fst snd]. rewrite V. rewrite grow_S, S_INR. set (p := val a * val b) in *. set (g := grow (length l)) in *.
    assert (G : 1 <= g) by apply grow_ge1. set (k := INR (length l)) in *. assert (K : 0 <= k) by apply pos_INR.
    pose proof (mag_pos l) as M. pose proof (ex_mag l) as X. pose proof (rnd_err (p + val c)) as E.
    pose proof (Rabs_step (rnd64 (p + val c)) (p + val c) (p + ex l)) as S1. replace (p + val c - (p + ex l)) with (val c - ex l) in S1 by ring.
    pose proof (Rabs_triang p (val c)) as S2. pose proof (Rabs_step (val c) (ex l) 0) as S3. rewrite !Rminus_0_r in S3.
    pose proof (Rabs_pos p) as P0. set (ap := Rabs p) in *. set (e := Rabs (val c - ex l)) in *. set (m := mag l) in *.
    assert (Q : uu * Rabs (p + val c) <= uu * (ap + (e + m))) by (apply Rmult_le_compat_l; lra).
    assert (Q2 : (1 + uu) * e <= (1 + uu) * ((g - 1) * m + k * tiny * g)) by (apply Rmult_le_compat_l; lra).
    assert (Q3 : 0 <= (1 + uu) * (g - 1) * ap) by (apply Rmult_le_pos; [apply Rmult_le_pos|]; lra).
    assert (Q4 : tiny <= tiny * ((1 + uu) * g)) by (rewrite <- (Rmult_1_r tiny) at 1; apply Rmult_le_compat_l; [lra|nra]).
    replace (((1 + uu) * g - 1) * (ap + m) + (k + 1) * tiny * ((1 + uu) * g))
      with ((1 + uu) * ((g - 1) * m + k * tiny * g) + uu * ap + uu * m + (1 + uu) * (g - 1) * ap + tiny * ((1 + uu) * g)) by ring.
    lra.
  - destruct (add_inv c c' F) as (Fc & Fc' & V). destruct (IH Fc) as (Fl & N), (IH' Fc') as (Fl' & N'). split; [apply Forall_app; split; assumption|].
    unfold near in *. rewrite app_length, ex_app, mag_app, V, plus_INR.
    destruct l as [|q l].
    { cbn [length ex mag INR grow pow] in N. cbn [app length plus ex mag INR].
      assert (Z : val c = 0). { assert (A : Rabs (val c - 0) <= 0) by (eapply Rle_trans; [exact N|unfold grow; simpl; lra]). pose proof (Rabs_pos (val c - 0)).
        assert (B : Rabs (val c - 0) = 0) by lra. apply Rabs_eq_R0 in B. lra. }
      rewrite Z, !Rplus_0_l, rnd_id by apply fmt_val. exact N'. }
    destruct l' as [|q' l'].
    { cbn [length ex mag INR grow pow] in N'. cbn [length ex mag INR]. rewrite Nat.add_0_r.
      assert (Z : val c' = 0). { assert (A : Rabs (val c' - 0) <= 0) by (eapply Rle_trans; [exact N'|unfold grow; simpl; lra]). pose proof (Rabs_pos (val c' - 0)).
        assert (B : Rabs (val c' - 0) = 0) by lra. apply Rabs_eq_R0 in B. lra. }
      rewrite Z, !Rplus_0_r, rnd_id by apply fmt_val. exact N. }
    remember (q :: l) as L eqn:EL. remember (q' :: l') as L' eqn:EL'. assert (HL : (1 <= length L)%nat) by (subst L; simpl; lia). assert (HL' : (1 <= length L')%nat) by (subst L'; simpl; lia).
    clear EL EL' q l q' l' IH IH' H H' Fl Fl'.
    assert (G1 : (1 + uu) * grow (length L) <= grow (length L + length L')) by (rewrite <- grow_S; apply grow_le; lia).
    assert (G2 : (1 + uu) * grow (length L') <= grow (length L + length L')) by (rewrite <- grow_S; apply grow_le; lia).
    set (g1 := grow (length L)) in *. set (g2 := grow (length L')) in *. set (g := grow (length L + length L')) in *.
    set (k1 := INR (length L)) in *. set (k2 := INR (length L')) in *. assert (K1 : 0 <= k1) by apply pos_INR. assert (K2 : 0 <= k2) by apply pos_INR.
    pose proof (mag_pos L) as M1. pose proof (mag_pos L') as M2. pose proof (ex_mag L) as X1. pose proof (ex_mag L') as X2.
    pose proof (rnd_err_plus (val c) (val c') (fmt_val c) (fmt_val c')) as E.
    pose proof (Rabs_step (rnd64 (val c + val c')) (val c + val c') (ex L + ex L')) as S1.
    pose proof (Rabs_triang (val c - ex L) (val c' - ex L')) as S2. replace (val c - ex L + (val c' - ex L')) with (val c + val c' - (ex L + ex L')) in S2 by ring.
    pose proof (Rabs_triang (val c) (val c')) as S3. pose proof (Rabs_step (val c) (ex L) 0) as S4. pose proof (Rabs_step (val c') (ex L') 0) as S5. rewrite !Rminus_0_r in S4, S5.
    set (e1 := Rabs (val c - ex L)) in *. set (e2 := Rabs (val c' - ex L')) in *. set (m1 := mag L) in *. set (m2 := mag L') in *.
    assert (Q : uu * Rabs (val c + val c') <= uu * ((e1 + m1) + (e2 + m2))) by (apply Rmult_le_compat_l; lra).
    assert (Q1 : (1 + uu) * e1 <= (1 + uu) * ((g1 - 1) * m1 + k1 * tiny * g1)) by (apply Rmult_le_compat_l; lra).
    assert (Q2 : (1 + uu) * e2 <= (1 + uu) * ((g2 - 1) * m2 + k2 * tiny * g2)) by (apply Rmult_le_compat_l; lra).
    assert (Q3 : m1 * ((1 + uu) * g1) <= m1 * g) by (apply Rmult_le_compat_l; lra).
    assert (Q4 : m2 * ((1 + uu) * g2) <= m2 * g) by (apply Rmult_le_compat_l; lra).
    assert (Q5 : k1 * tiny * ((1 + uu) * g1) <= k1 * tiny * g) by (apply Rmult_le_compat_l; [apply Rmult_le_pos|]; lra).
    assert (Q6 : k2 * tiny * ((1 + uu) * g2) <= k2 * tiny * g) by (apply Rmult_le_compat_l; [apply Rmult_le_pos|]; lra).
    lra.
  - destruct (IH F) as (Fl & N). split.
    + unfold all_finite in *. rewrite Forall_forall in *. intros p Hin. apply Fl. apply (Permutation_in p (Permutation_sym Hp) Hin).
    + unfold near in *. rewrite <- (Permutation_length Hp), <- (ex_perm _ _ Hp), <- (mag_perm _ _ Hp). exact N.
Qed.

(** two stages: the first factors c of the products are themselves computed sums *)
Definition item : Type := (list (f64 * f64) * f64 * f64)%type.
Definition it_l (t : item) := fst (fst t).
Definition it_c (t : item) := snd (fst t).
Definition it_b (t : item) := snd t.
Fixpoint ex2 (l : list item) : R := match l with [] => 0 | t :: l => ex (it_l t) * val (it_b t) + ex2 l end.
Fixpoint mag2 (l : list item) : R := match l with [] => 0 | t :: l => mag (it_l t) * Rabs (val (it_b t)) + mag2 l end.
Fixpoint abs2 (l : list item) : R := match l with [] => 0 | t :: l => Rabs (val (it_b t)) + abs2 l end.
Definition outer (l : list item) : list (f64 * f64) := map (fun t => (it_c t, it_b t)) l.
Definition inner_ok (d : nat) (t : item) : Prop := sums (it_l t) (it_c t) /\ (length (it_l t) <= d)%nat.

Lemma mag2_pos l : 0 <= mag2 l.
Proof. induction l as [|t l IH]; cbn [mag2]; [lra|]. pose proof (Rmult_le_pos _ _ (mag_pos (it_l t)) (Rabs_pos (val (it_b t)))). lra. Qed.
Lemma abs2_pos l : 0 <= abs2 l.
Proof. induction l as [|t l IH]; cbn [abs2]; [lra|]. pose proof (Rabs_pos (val (it_b t))). lra. Qed.
Lemma near_weaken d l c : (length l <= d)%nat -> near l c -> Rabs (c - ex l) <= (grow d - 1) * mag l + INR d * tiny * grow d.
Proof.
  intros H N. eapply Rle_trans; [exact N|]. pose proof (grow_le _ _ H). pose proof (mag_pos l). pose proof (le_INR _ _ H). pose proof tiny_pos.
  pose proof (grow_ge1 (length l)). pose proof (pos_INR (length l)).
  apply Rplus_le_compat; [apply Rmult_le_compat_r; lra|]. apply Rmult_le_compat; [apply Rmult_le_pos; lra|lra| |lra]. apply Rmult_le_compat_r; lra.
Qed.
Lemma stage d l : Forall (fun t => Rabs (val (it_c t) - ex (it_l t)) <= (grow d - 1) * mag (it_l t) + INR d * tiny * grow d) l ->
  Rabs (ex (outer l) - ex2 l) <= (grow d - 1) * mag2 l + INR d * tiny * grow d * abs2 l
  /\ mag (outer l) <= grow d * mag2 l + INR d * tiny * grow d * abs2 l.
Proof.
  induction 1 as [|t l H _ [IH1 IH2]]; cbn [outer map ex mag ex2 mag2 abs2 fst snd].
  { rewrite Rminus_0_r, Rabs_R0. split; lra. }
  fold (outer l). set (b := Rabs (val (it_b t))) in *. assert (B : 0 <= b) by apply Rabs_pos. set (K := INR d * tiny * grow d) in *. set (e := Rabs (val (it_c t) - ex (it_l t))) in *.
  assert (M : e * b <= ((grow d - 1) * mag (it_l t) + K) * b) by (apply Rmult_le_compat_r; assumption).
  split.
  - replace (val (it_c t) * val (it_b t) + ex (outer l) - (ex (it_l t) * val (it_b t) + ex2 l)) with ((val (it_c t) - ex (it_l t)) * val (it_b t) + (ex (outer l) - ex2 l)) by ring.
    eapply Rle_trans; [apply Rabs_triang|]. rewrite Rabs_mult. fold e b. lra.
  - rewrite Rabs_mult. fold b. pose proof (Rabs_step (val (it_c t)) (ex (it_l t)) 0) as S. rewrite !Rminus_0_r in S. fold e in S. pose proof (ex_mag (it_l t)) as X.
    assert (Q : Rabs (val (it_c t)) * b <= (e + mag (it_l t)) * b) by (apply Rmult_le_compat_r; lra). lra.
Qed.
Lemma near2 d l r : Forall (fun t => Rabs (val (it_c t) - ex (it_l t)) <= (grow d - 1) * mag (it_l t) + INR d * tiny * grow d) l -> near (outer l) r ->
  Rabs (r - ex2 l) <= (grow (length l + d) - 1) * mag2 l + tiny * grow (length l + d) * (INR d * abs2 l + INR (length l)).
Proof.
  intros HS N. unfold near in N. unfold outer in N. rewrite map_length in N. fold (outer l) in N.
  destruct (stage d l HS) as (S1 & S2). rewrite grow_add. set (g := grow d) in *. set (h := grow (length l)) in *.
  assert (G : 1 <= g) by apply grow_ge1. assert (H : 1 <= h) by apply grow_ge1. pose proof tiny_pos as T. pose proof (mag2_pos l) as M. pose proof (abs2_pos l) as A.
  pose proof (pos_INR d) as D. pose proof (pos_INR (length l)) as K. set (k := INR (length l)) in *.
  pose proof (Rabs_step (r) (ex (outer l)) (ex2 l)) as St.
  assert (Q : (h - 1) * mag (outer l) <= (h - 1) * (g * mag2 l + INR d * tiny * g * abs2 l)) by (apply Rmult_le_compat_l; lra).
  assert (Q2 : k * tiny * h <= k * tiny * (h * g)) by (apply Rmult_le_compat_l; [apply Rmult_le_pos; lra|rewrite <- (Rmult_1_r h) at 1; apply Rmult_le_compat_l; lra]).
  replace ((h * g - 1) * mag2 l + tiny * (h * g) * (INR d * abs2 l + k))
    with ((h - 1) * (g * mag2 l + INR d * tiny * g * abs2 l) + ((g - 1) * mag2 l + INR d * tiny * g * abs2 l) + k * tiny * (h * g)) by ring.
  lra.
Qed.
Theorem sums_error2 d l r : Forall (inner_ok d) l -> sums (outer l) r -> finite r = true ->
  Rabs (val r - ex2 l) <= (grow (length l + d) - 1) * mag2 l + tiny * grow (length l + d) * (INR d * abs2 l + INR (length l)).
Proof.
  intros Hi Hs F. destruct (sums_error _ _ Hs F) as (Fo & N). apply near2; [|exact N].
  rewrite Forall_forall in *. intros t Ht. destruct (Hi t Ht) as (Hc & Hl). apply near_weaken; [exact Hl|]. apply (sums_error _ _ Hc).
  unfold all_finite in Fo. rewrite Forall_forall in Fo. apply (Fo (it_c t, it_b t)). unfold outer. apply in_map_iff. exists t. split; [reflexivity|exact Ht].
Qed.
(** adding a number to a computed one *)
Lemma add_near x v E g M T : fmt64 x -> fmt64 v -> 1 <= g -> 0 <= T -> Rabs E <= M -> Rabs (v - E) <= (g - 1) * M + T ->
  Rabs (rnd64 (x + v) - (x + E)) <= ((1 + uu) * g - 1) * (Rabs x + M) + (1 + uu) * T.
Proof.
  intros Fx Fv G T0 HE H. pose proof (rnd_err_plus x v Fx Fv) as E1. pose proof (Rabs_step (rnd64 (x + v)) (x + v) (x + E)) as S1.
  replace (x + v - (x + E)) with (v - E) in S1 by ring. pose proof (Rabs_triang x v) as S2. pose proof (Rabs_step v E 0) as S3. rewrite !Rminus_0_r in S3.
  pose proof uu_pos as U. pose proof (Rabs_pos x) as X. pose proof (Rabs_pos E) as X2. set (d := Rabs (v - E)) in *. set (ax := Rabs x) in *.
  assert (Q : uu * Rabs (x + v) <= uu * (ax + (d + M))) by (apply Rmult_le_compat_l; lra).
  assert (Q2 : (1 + uu) * d <= (1 + uu) * ((g - 1) * M + T)) by (apply Rmult_le_compat_l; lra).
  assert (Q3 : 0 <= (1 + uu) * (g - 1) * ax) by (apply Rmult_le_pos; [apply Rmult_le_pos|]; lra).
  replace (((1 + uu) * g - 1) * (ax + M) + (1 + uu) * T) with ((1 + uu) * ((g - 1) * M + T) + uu * ax + uu * M + (1 + uu) * (g - 1) * ax) by ring. lra.
Qed.

(** ** No overflow: sums of numbers that are not huge are finite *)
Definition bound (l : list (f64 * f64)) : R := grow (length l) * mag l + INR (length l) * tiny * grow (length l).
Lemma bound_pos l : 0 <= bound l.
Proof.
  unfold bound. pose proof (grow_ge1 (length l)). pose proof (mag_pos l). pose proof (pos_INR (length l)). pose proof tiny_pos.
  apply Rplus_le_le_0_compat; repeat apply Rmult_le_pos; lra.
Qed.
Lemma bound_app l l' : bound l + bound l' <= bound (l ++ l').
Proof.
  unfold bound. rewrite app_length, mag_app, plus_INR. pose proof (grow_le (length l) (length l + length l') ltac:(lia)) as G1.
  pose proof (grow_le (length l') (length l + length l') ltac:(lia)) as G2. set (g1 := grow (length l)) in *. set (g2 := grow (length l')) in *. set (g := grow (length l + length l')) in *.
  pose proof (mag_pos l) as M1. pose proof (mag_pos l') as M2. pose proof (pos_INR (length l)) as K1. pose proof (pos_INR (length l')) as K2. pose proof tiny_pos as T.
  pose proof (Rmult_le_compat_r _ _ _ M1 G1). pose proof (Rmult_le_compat_r _ _ _ M2 G2).
  pose proof (Rmult_le_compat_l _ _ _ (Rmult_le_pos _ _ K1 (Rlt_le _ _ T)) G1). pose proof (Rmult_le_compat_l _ _ _ (Rmult_le_pos _ _ K2 (Rlt_le _ _ T)) G2). lra.
Qed.
Lemma bound_perm l l' : Permutation l l' -> bound l = bound l'.
Proof. intros H. unfold bound. rewrite (Permutation_length H), (mag_perm _ _ H). reflexivity. Qed.
Lemma near_bound l c : near l c -> Rabs c <= bound l.
Proof.
  intros N. unfold near in N. pose proof (Rabs_step c (ex l) 0) as S. rewrite !Rminus_0_r in S. pose proof (ex_mag l). unfold bound. lra.
Qed.
Lemma mag_bound l : mag l <= bound l.
Proof.
  unfold bound. pose proof (grow_ge1 (length l)) as G. pose proof (mag_pos l) as M. pose proof (pos_INR (length l)). pose proof tiny_pos.
  assert (0 <= INR (length l) * tiny * grow (length l)) by (repeat apply Rmult_le_pos; lra). pose proof (Rmult_le_compat_r _ _ _ M G). lra.
Qed.
Lemma fma_ok a b c : finite a = true -> finite b = true -> finite c = true -> Rabs (val a * val b + val c) <= big -> finite (ffma64 a b c) = true.
Proof.
  intros Fa Fb Fc H. pose proof (Bfma_correct 53 1024 prec64_gt_0 prec64_lt mode_NE a b c Fa Fb Fc) as C. cbv zeta in C. simpl round_mode in C.
  rewrite Rlt_bool_true in C by (apply below, H). apply C.
Qed.
Theorem sums_finite l c : sums l c -> all_finite l -> bound l <= big -> finite c = true.
Proof.
  induction 1 as [|a|a b|a b l c H IH|l l' c c' H IH H' IH'|l l' c Hp H IH]; intros F B.
  - reflexivity.
  - inversion F as [|? ? [_ Fa] _]. exact Fa.
  - inversion F as [|? ? [Fa Fb] _]. apply (mul_ok a b Fa Fb). pose proof (mag_bound [(a, b)]) as M. cbn [mag fst snd] in M. lra.
  - inversion F as [|? ? [Fa Fb] Fl]; subst. cbn [fst snd] in *. pose proof (bound_app [(a, b)] l) as A. cbn [app] in A. pose proof (bound_pos [(a, b)]). pose proof (mag_bound [(a, b)]) as M. cbn [mag fst snd] in M.
    assert (Fc : finite c = true) by (apply IH; [exact Fl|lra]). apply fma_ok; auto. eapply Rle_trans; [apply Rabs_triang|].
    pose proof (near_bound _ _ (proj2 (sums_error _ _ H Fc))). lra.
  - apply Forall_app in F as [F F']. pose proof (bound_app l l') as A. pose proof (bound_pos l). pose proof (bound_pos l').
    assert (Fc : finite c = true) by (apply IH; [exact F|lra]). assert (Fc' : finite c' = true) by (apply IH'; [exact F'|lra]).
    apply (add_ok c c' Fc Fc'). eapply Rle_trans; [apply Rabs_triang|]. pose proof (near_bound _ _ (proj2 (sums_error _ _ H Fc))). pose proof (near_bound _ _ (proj2 (sums_error _ _ H' Fc'))). lra.
  - apply IH; [|rewrite (bound_perm _ _ Hp); exact B]. unfold all_finite in *. rewrite Forall_forall in *. intros p Hin. apply F. apply (Permutation_in p Hp Hin).
Qed.

(** ** Sums over indices *)
Fixpoint rsum (n : nat) (f : nat -> R) : R := match n with O => 0 | S k => rsum k f + f k end.
Definition pairs (n : nat) (f g : nat -> f64) : list (f64 * f64) := map (fun k => (f k, g k)) (seq 0 n).
Lemma pairs_S n f g : pairs (S n) f g = pairs n f g ++ [(f n, g n)].
Proof. unfold pairs. rewrite seq_S, map_app. reflexivity. Qed.
Lemma pairs_length n f g : length (pairs n f g) = n.
Proof. unfold pairs. rewrite map_length, seq_length. reflexivity. Qed.
Lemma ex_pairs n f g : ex (pairs n f g) = rsum n (fun k => val (f k) * val (g k)).
Proof. induction n as [|n IH]; [reflexivity|]. rewrite pairs_S, ex_app, IH. cbn [ex fst snd rsum]. ring. Qed.
Lemma mag_pairs n f g : mag (pairs n f g) = rsum n (fun k => Rabs (val (f k)) * Rabs (val (g k))).
Proof. induction n as [|n IH]; [reflexivity|]. rewrite pairs_S, mag_app, IH. cbn [mag fst snd rsum]. rewrite Rabs_mult. ring. Qed.
Lemma rsum_ext n f g : (forall k, (k < n)%nat -> f k = g k) -> rsum n f = rsum n g.
Proof. induction n as [|n IH]; intros H; cbn [rsum]; [reflexivity|]. rewrite IH, H; auto. Qed.
Lemma rsum_plus n f g : rsum n (fun k => f k + g k) = rsum n f + rsum n g.
Proof. induction n as [|n IH]; cbn [rsum]; [ring|]. rewrite IH. ring. Qed.
Lemma rsum_scal n c f : rsum n (fun k => c * f k) = c * rsum n f.
Proof. induction n as [|n IH]; cbn [rsum]; [ring|]. rewrite IH. ring. Qed.
Lemma rsum_scal_r n c f : rsum n (fun k => f k * c) = rsum n f * c.
Proof. induction n as [|n IH]; cbn [rsum]; [ring|]. rewrite IH. ring. Qed.
Lemma rsum_0 n : rsum n (fun _ => 0) = 0.
Proof. induction n as [|n IH]; cbn [rsum]; [ring|]. rewrite IH. ring. Qed.
Lemma rsum_swap n m (f : nat -> nat -> R) : rsum n (fun i => rsum m (fun j => f i j)) = rsum m (fun j => rsum n (fun i => f i j)).
Proof.
  induction n as [|n IH]; cbn [rsum]; [rewrite rsum_0; reflexivity|]. rewrite IH, <- rsum_plus. reflexivity.
Qed.
Lemma rsum_le n f g : (forall k, (k < n)%nat -> f k <= g k) -> rsum n f <= rsum n g.
Proof. induction n as [|n IH]; intros H; cbn [rsum]; [lra|]. pose proof (IH (fun k Hk => H k (Nat.lt_lt_succ_r _ _ Hk))). pose proof (H n ltac:(lia)). lra. Qed.
Lemma rsum_abs n f : Rabs (rsum n f) <= rsum n (fun k => Rabs (f k)).
Proof. induction n as [|n IH]; cbn [rsum]; [rewrite Rabs_R0; lra|]. eapply Rle_trans; [apply Rabs_triang|]. lra. Qed.
Lemma rsum_pos n f : (forall k, (k < n)%nat -> 0 <= f k) -> 0 <= rsum n f.
Proof. intros H. rewrite <- (rsum_0 n). apply rsum_le. exact H. Qed.
Definition items (n : nat) (t : nat -> item) : list item := map t (seq 0 n).
Lemma items_S n t : items (S n) t = items n t ++ [t n].
Proof. unfold items. rewrite seq_S, map_app. reflexivity. Qed.
Lemma items_length n t : length (items n t) = n.
Proof. unfold items. rewrite map_length, seq_length. reflexivity. Qed.
Lemma items_app2 (l l' : list item) : ex2 (l ++ l') = ex2 l + ex2 l' /\ mag2 (l ++ l') = mag2 l + mag2 l' /\ abs2 (l ++ l') = abs2 l + abs2 l'.
Proof. induction l as [|t l (IH1 & IH2 & IH3)]; cbn [app ex2 mag2 abs2]; [repeat split; ring|]. rewrite IH1, IH2, IH3. repeat split; ring. Qed.
Lemma items_ex2 n t : ex2 (items n t) = rsum n (fun k => ex (it_l (t k)) * val (it_b (t k))) /\
  mag2 (items n t) = rsum n (fun k => mag (it_l (t k)) * Rabs (val (it_b (t k)))) /\ abs2 (items n t) = rsum n (fun k => Rabs (val (it_b (t k)))).
Proof.
  induction n as [|n (IH1 & IH2 & IH3)]; [repeat split|]. rewrite items_S. destruct (items_app2 (items n t) [t n]) as (E1 & E2 & E3). rewrite E1, E2, E3, IH1, IH2, IH3.
  cbn [ex2 mag2 abs2 rsum]. repeat split; ring.
Qed.

(** ** The filters' matrix computations.  [product r m c A B M]: M is A * B, A with r rows, B with c columns *)
Definition fmat : Type := nat -> nat -> f64.
Definition fvec : Type := nat -> f64.
Definition product (r m c : nat) (A B M : fmat) : Prop :=
  forall i j, (i < r)%nat -> (j < c)%nat -> sums (pairs m (A i) (fun k => B k j)) (M i j).
(** kalman_filter.cpp:14-17 (and ekf.cpp:12-15 with G for A): the covariance becomes
    A * cov * A' + P * Rp * P' + V * Rc * V'; n states, p process noises, m controls.  Eigen evaluates the
    inner products to temporaries; the terms of the outer ones may be accumulated in any order. *)
Definition predicted_cov (n p m : nat) (A cov Pn Rp V Rc cov' : fmat) : Prop :=
  exists AP PR VR, product n n n A cov AP /\ product n p p Pn Rp PR /\ product n m m V Rc VR /\
  forall i j, (i < n)%nat -> (j < n)%nat ->
    sums (pairs n (AP i) (A j) ++ pairs p (PR i) (Pn j) ++ pairs m (VR i) (V j)) (cov' i j).
(** kalman_filter.cpp:10-12 with the default addVectors (filter_model.cpp:87-89) *)
Definition predicted_state (n m : nat) (A B : fmat) (x u x' : fvec) : Prop :=
  exists Ax Bu : fvec, forall i, (i < n)%nat ->
    sums (pairs n (A i) x) (Ax i) /\ sums (pairs m (B i) u) (Bu i) /\ x' i = fadd64 (Ax i) (Bu i).
(** kalman_filter.cpp:41-42, the gain K with [inv] what .inverse() returns (any matrix), and :50, the
    covariance (I - K * C) * cov (ekf.cpp:38-39, 46 with H for C) *)
Definition gain (n k : nat) (C cov inv K : fmat) : Prop :=
  exists cov_C_T, product n n k cov (fun i j => C j i) cov_C_T /\ product n k k cov_C_T inv K.
Definition innovation_cov (n k : nat) (C cov Q S : fmat) : Prop :=
  exists cov_C_T, product n n k cov (fun i j => C j i) cov_C_T /\
  forall i j, (i < k)%nat -> (j < k)%nat -> sums ((fone, Q i j) :: pairs n (C i) (fun l => cov_C_T l j)) (S i j).
Definition fopp64 : f64 -> f64 := Bopp.
Definition corrected_cov (n k : nat) (C cov K cov' : fmat) : Prop :=
  exists IKC : fmat, (forall i j, (i < n)%nat -> (j < n)%nat ->
     sums ((fone, if Nat.eqb i j then fone else fzero) :: pairs k (fun l => fopp64 (K i l)) (fun l => C l j)) (IKC i j))
  /\ product n n n IKC cov cov'.
(** kalman_filter.cpp:47-49 with the default subtractVectors and addVectors (filter_model.cpp:87-93) *)
Definition corrected_state (n k : nat) (C K : fmat) (x z x' : fvec) : Prop :=
  exists z_pred dz dx : fvec, (forall l, (l < k)%nat -> sums (pairs n (C l) x) (z_pred l) /\ dz l = fsub64 (z l) (z_pred l))
  /\ forall i, (i < n)%nat -> sums (pairs k (K i) dz) (dx i) /\ x' i = fadd64 (x i) (dx i).
(** ekf.cpp:44-45, where h is what the measurement model predicts *)
Definition ekf_corrected_state (n k : nat) (K : fmat) (x z h x' : fvec) : Prop :=
  exists dz dx : fvec, (forall l, (l < k)%nat -> dz l = fsub64 (z l) (h l))
  /\ forall i, (i < n)%nat -> sums (pairs k (K i) dz) (dx i) /\ x' i = fadd64 (x i) (dx i).
