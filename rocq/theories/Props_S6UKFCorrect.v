(** C113: a UKF on SixDRates that is corrected with an IMU measurement gets a negative variance. *)
From Coq Require Import Reals Lra Psatz ZArith.
From mathcomp Require Import all_ssreflect all_algebra.
From Verif Require Import Outcome FB_Model ActiveSets Geo Integration Props_Integration SixD Props_SixD Props_SixDArith S6_Real.
From Verif Require Import McRing LinAlg KF_Algebra KF_Model UKF_Model UKF_Chol UKF_Lemmas UKF_Algebra Props_UKF Props_UKFManifold RealField S6_Filter Props_S6Filter Props_S6UKF.
Set Implicit Arguments.
Unset Strict Implicit.
Unset Printing Implicit Defensive.
Import GRing.Theory Num.Theory Order.TTheory.
Local Open Scope ring_scope.
Delimit Scope R_scope with coqR.

(** ** the gravity of the sigma points *)
Section Reals.
Local Open Scope R_scope.
Let G := g_std.
Definition gr (v : V3) : V3 := vscale g_std (normalized v).
Lemma gr_vx0 y z : vx (gr (mkV 0 y z)) = 0.
Proof. rewrite /gr /normalized; case: Rlt_dec => _; rewrite /vscale /=; ring. Qed.
Lemma renorm_9 v : renorm v 9%nat = vx (gr (seg v 9%nat)).
Proof. reflexivity. Qed.
Lemma renorm_seg v : seg (renorm v) 9%nat = gr (seg v 9%nat).
Proof. rewrite /renorm /s6_GX seg_put_seg //. Qed.
Lemma renorm_other v i : (i < 9)%nat \/ (11 < i)%nat -> renorm v i = v i.
Proof.
move=> h; rewrite /renorm /put_seg /put /s6_GX.
have [-> [-> ->]] : PeanoNat.Nat.eqb i (9 + 2)%coq_nat = false /\ PeanoNat.Nat.eqb i (9 + 1)%coq_nat = false /\ PeanoNat.Nat.eqb i 9%nat = false.
  by split; [|split]; apply/PeanoNat.Nat.eqb_neq => e; subst i; case: h.
by [].
Qed.
(** the components of a gravity vector tilted by s/G *)
Definition tx (s : R) : R := g_std * (/ sqrt (s * s + g_std * g_std) * s).
Definition tz (s : R) : R := g_std * (/ sqrt (s * s + g_std * g_std) * g_std).
Lemma gpos : 0 < g_std. Proof. exact gstd_pos. Qed.
Lemma tilt s : gr (mkV s 0 g_std) = mkV (tx s) 0 (tz s).
Proof.
have gp := gpos; have e : norm2 (mkV s 0 g_std) = s * s + g_std * g_std by rewrite /norm2 /Geo.dot /=; ring.
rewrite /gr /normalized /norm e; case: Rlt_dec => [_|h]; last by exfalso; apply: h; nra.
by rewrite /vscale /tx /tz /=; f_equal; ring.
Qed.
Lemma tx_opp s : tx (- s) = - tx s.
Proof. rewrite /tx; replace (- s * - s) with (s * s) by ring; ring. Qed.
Lemma tz_opp s : tz (- s) = tz s.
Proof. by rewrite /tz; replace (- s * - s) with (s * s) by ring. Qed.
Definition dxx (s : R) : R := vx (gr (mkV (tx s) 0 (tz s - g_std))).
Lemma dxx_opp s : dxx (- s) = - dxx s.
Proof.
rewrite /dxx tx_opp tz_opp /gr /normalized /norm.
have -> : norm2 (mkV (- tx s) 0 (tz s - g_std)) = norm2 (mkV (tx s) 0 (tz s - g_std)) by rewrite /norm2 /Geo.dot /=; ring.
case: Rlt_dec => _; rewrite /vscale /=; ring.
Qed.
Lemma tilt_facts s : 0 < s -> [/\ 0 < tx s, (tx s * tx s) * (s * s + g_std * g_std) = (g_std * g_std) * (s * s), tx s * tx s + tz s * tz s = g_std * g_std & 0 < tz s].
Proof.
move=> sp; have gp := gpos; set N := s * s + g_std * g_std; have np : 0 < N by rewrite /N; nra.
have rp := sqrt_lt_R0 _ np; have re := sqrt_sqrt _ (Rlt_le _ _ np).
rewrite /tx /tz -/N; set r := sqrt N in rp re *; have ip : 0 < / r by apply: Rinv_0_lt_compat.
have ie : / r * / r * N = 1 by rewrite -re; field; lra.
split.
- by apply: Rmult_lt_0_compat => //; apply: Rmult_lt_0_compat.
- replace (g_std * (/ r * s) * (g_std * (/ r * s)) * N) with (g_std * g_std * (s * s) * (/ r * / r * N)) by ring.
  by rewrite ie; ring.
- replace (g_std * (/ r * s) * (g_std * (/ r * s)) + g_std * (/ r * g_std) * (g_std * (/ r * g_std))) with (g_std * g_std * (/ r * / r * N)) by (rewrite /N; ring).
  by rewrite ie; ring.
- by apply: Rmult_lt_0_compat => //; apply: Rmult_lt_0_compat.
Qed.
(** subtractVectors makes of the difference a vector of the length of gravity *)
Lemma dxx_big s : 0 < s -> g_std * g_std <= 2 * (dxx s * dxx s).
Proof.
move=> sp; have gp := gpos; have [h1 h2 h3 h4] := tilt_facts sp.
rewrite /dxx; move: (tx s) (tz s) h1 h2 h3 h4 => t u t0 _ e u0.
have e2 : norm2 (mkV t 0 (u - g_std)) = 2 * g_std * (g_std - u) by rewrite /norm2 /Geo.dot /=; lra.
have ug : u < g_std by nra.
have np : 0 < 2 * g_std * (g_std - u) by apply: Rmult_lt_0_compat; lra.
rewrite /gr /normalized /norm e2; case: Rlt_dec => [_|h] //; rewrite /vscale /=.
set r := sqrt _; have rp : 0 < r by exact: sqrt_lt_R0.
have re : r * r = 2 * g_std * (g_std - u) := sqrt_sqrt _ (Rlt_le _ _ np).
have ip : 0 < / r * / r by apply: Rmult_lt_0_compat; exact: Rinv_0_lt_compat.
have ie : / r * / r * (2 * g_std * (g_std - u)) = 1 by rewrite -re; field; lra.
replace (2 * (g_std * (/ r * t) * (g_std * (/ r * t)))) with (g_std * (g_std + u) * (/ r * / r * (2 * g_std * (g_std - u)))); last first.
  replace (g_std * (g_std + u) * (/ r * / r * (2 * g_std * (g_std - u)))) with (2 * g_std * g_std * (/ r * / r) * ((g_std + u) * (g_std - u))) by ring.
  replace ((g_std + u) * (g_std - u)) with (t * t) by lra. ring.
rewrite ie; nra.
Qed.
(** so a correction takes more from the variance than there is *)
Lemma too_much s v : 0 < s -> 16 * (s * s) <= g_std * g_std -> 0 <= v <= s * s ->
  s * s * (v + 2 * (s * s) + tx s * tx s) < (dxx s * tx s) * (dxx s * tx s).
Proof.
move=> sp hs hv; have gp := gpos; have d := dxx_big sp; have [t0 te _ _] := tilt_facts sp.
have [G2p s2p t2p] : [/\ 0 < g_std * g_std, 0 < s * s & 0 < tx s * tx s] by split; apply: Rmult_lt_0_compat.
have -> : dxx s * tx s * (dxx s * tx s) = (dxx s * dxx s) * (tx s * tx s) by ring.
move: (dxx s * dxx s) (tx s * tx s) (g_std * g_std) (s * s) G2p s2p t2p hs hv d te => D t2 G2 s2 G2p s2p t2p hs hv d te.
have ts : t2 <= s2 by apply: (Rmult_le_reg_r (s2 + G2)); [lra|rewrite te; nra].
have b : 2 * (s2 * (4 * s2)) < G2 * t2.
  apply: (Rmult_lt_reg_r (s2 + G2)); first by lra.
  replace (G2 * t2 * (s2 + G2)) with (G2 * (t2 * (s2 + G2))) by ring; rewrite te.
  have h1 : s2 * s2 <= s2 * (G2 / 16) by apply: Rmult_le_compat_l; lra.
  have h2 : s2 * G2 <= G2 / 16 * G2 by apply: Rmult_le_compat_r; lra.
  have h3 : 8 * (s2 * (s2 + G2)) < G2 * G2 by have := Rmult_lt_0_compat _ _ G2p G2p; nra.
  by have := Rmult_lt_compat_l _ _ _ s2p h3; lra.
nra.
Qed.
End Reals.
Local Opaque gr tx tz dxx.

(** ** two facts about matrices *)
Section Mat.
Variable R : rcfType.
Add Field Rfield : (mc_field R).
Definition part_done n (a : R) (d : seq 'I_n) : 'M[R]_n := \matrix_(i, j) if i == j then if i \in d then Num.sqrt a else a else 0.
Lemma llt_loop_scalar n (a : R) (ks d : seq 'I_n) : 0 < a -> uniq ks -> ~~ has (mem d) ks -> llt_loop (part_done a d) ks = part_done a (ks ++ d).
Proof.
move=> a0; elim: ks d => [//|k ks IH] d /=; case/andP=> nk uk; rewrite negb_or => /andP[kd hd].
have pv : llt_pivot (part_done a d) k = a.
  rewrite /llt_pivot !mxE eqxx (negbTE kd) big1 ?subr0 // => j jk; rewrite mxE.
  by case: eqP => [e|_]; [move: jk; rewrite -e ltnn|rewrite expr0n].
rewrite pv leNgt a0 /=.
have -> : llt_column (part_done a d) k (Num.sqrt a) = part_done a (k :: d).
  apply/matrixP=> i j; rewrite !mxE inE; case: (j =P k) => [->|jk].
    case: (i =P k) => [->|ik] //; case: ifP => // ki.
    rewrite big1 ?subrr ?mul0r // => l lk; rewrite !mxE; case: (k =P l) => [e|_]; last by rewrite mulr0.
    by move: lk; rewrite -e ltnn.
  by case: (i =P j) => // e; have -> : (i == k) = false by apply/eqP => h; apply: jk; rewrite -e.
rewrite IH //; last by apply/hasPn => l lk; rewrite inE negb_or (hasPn hd l lk) andbT; apply: contraNneq nk => <-.
apply/matrixP=> i j; rewrite !mxE.
have -> : (i \in ks ++ k :: d) = (i \in k :: ks ++ d); last by [].
by rewrite mem_cat !inE mem_cat; case: (i == k); case: (i \in ks); case: (i \in d).
Qed.
Lemma llt_scalar n (a : R) : 0 < a -> llt_L (a%:M : 'M[R]_n) = (Num.sqrt a)%:M.
Proof.
move=> a0; rewrite /llt_L.
have -> : (a%:M : 'M[R]_n) = part_done a [::] by apply/matrixP=> i j; rewrite !mxE; case: eqP.
rewrite llt_loop_scalar ?enum_uniq //; last by apply/hasPn.
apply/matrixP=> i j; rewrite !mxE cats0 mem_enum inE; case: eqP => [->|_]; first by rewrite leqnn.
by rewrite if_same.
Qed.
(** Cauchy's inequality for the inverse of a positive definite matrix *)
Lemma cauchy_row n k (X : 'M[R]_(n, k)) (S : 'M[R]_k) i j : pd S ->
  X i j ^+ 2 <= (X *m invmx S *m X^T) i i * S j j.
Proof.
move=> pS; have uS := pd_unit pS; have [sS hS] := pS; have [_ hS'] := pd_psd pS.
pose e : 'cV[R]_k := delta_mx j 0; pose a : 'cV[R]_k := (row i X)^T.
have ej y : dot e y = y j 0 by rewrite /dot /e trmx_delta -rowE mxE.
have Sj : S j j = qf S e by rewrite qfE ej /e -colE mxE.
have Sp : 0 < S j j.
  rewrite Sj; apply: hS; apply/eqP => /matrixP /(_ j 0); rewrite !mxE !eqxx => /eqP; by rewrite oner_eq0.
have e1 : (X *m invmx S *m X^T) i i = qf (invmx S) a.
  by rewrite /qf /bf /a trmxK -!row_mul [RHS]mxE !mxE; apply: eq_bigr => l _; rewrite !mxE.
pose v := invmx S *m a; pose t := - (X i j / S j j).
have := hS' (v + t *: e); rewrite /qf bfDl !bfDr !(bfZl, bfZr) (bf_sym v e sS) -!/(qf _ _) -Sj.
have -> : qf S v = qf (invmx S) a by rewrite !qfE /v (mulmxA S) mulmxV // mul1mx dotC.
have -> : bf S e v = X i j by rewrite bfE ej /v mulmxA mulmxV // mul1mx !mxE.
rewrite e1; set q := qf (invmx S) a; set y := X i j; set d := S j j in Sp t *.
have -> : q + t * y + (t * y + t * (t * d)) = q - y ^+ 2 / d.
  rewrite /t -/y; have d0 : d != 0 by rewrite gt_eqF.
  move: q y d d0 {Sp t Sj}; clear => q y d d0; by mcfield R; apply/eqP.
by rewrite subr_ge0 ler_pdivr_mulr.
Qed.
End Mat.

Lemma default_beta : ((1 / 1000%:R) ^+ 2 : R_rcfType) <= 2%:R.
Proof.
have p : (0 : R_rcfType) < 1000%:R by rewrite ltr0n.
have i1 : (1 / 1000%:R : R_rcfType) <= 1 by rewrite ler_pdivr_mulr // mul1r ler1n.
have i0 : (0 : R_rcfType) <= 1 / 1000%:R by apply: divr_ge0; rewrite ?ler01 // ltW.
by apply: le_trans (exprn_ile1 _ i0 i1) _; rewrite ler1n.
Qed.
Section Step.
Variables (T : Type) (secs : T -> R).
Let S := six_d_sys secs.
Let M := six_d_meas T 6.
Local Notation RF := R_rcfType.
(** ** C113: the corrected covariance has no negative variances *)
Definition C113_claim : Prop := forall (par : UKFPar RF) (o : S6Obj) (q q' : M6Obj 6) x P z dt x' (P' : 'M[R]_18),
  default_sigma RF 18 = Ok par -> pd P -> pd (mo_cov q) -> gravity_std x ->
  ukf_correct (R := RF) (S := S) (M := M) par o q x P z dt = Ok (q', x', P') -> psd P'.

Let i3 : 'I_18 := @Ordinal 18 3 isT.
Let i9 : 'I_18 := @Ordinal 18 9 isT.
Let i12 : 'I_18 := @Ordinal 18 12 isT.
Lemma final (w c p r s t d Y X0 S0 : R) : (0 < c -> 2 * w * c = 1 -> s * s = c * p -> X0 = w * (d * t + d * t) ->
  S0 = r + w * (2 * (2 * (s * s) + t * t)) -> X0 * X0 <= Y * S0 -> 0 < S0 ->
  s * s * (c * r + 2 * (s * s) + t * t) < (d * t) * (d * t) -> p < Y)%coqR.
Proof.
move=> c0 wc ss -> Se h S0p hlt; apply: Rnot_le_lt => Yp.
have h2 : (c * c * (w * (d * t + d * t) * (w * (d * t + d * t))) <= c * c * (p * S0))%coqR.
  apply: Rmult_le_compat_l; first by nra.
  by apply: Rle_trans h _; apply: Rmult_le_compat_r; lra.
have e1 : (c * c * (w * (d * t + d * t) * (w * (d * t + d * t))) = (2 * w * c) * (2 * w * c) * ((d * t) * (d * t)))%coqR by ring.
have e2 : (c * c * (p * S0) = (c * p) * (c * r + (2 * w * c) * (2 * (s * s) + t * t)))%coqR by rewrite Se; ring.
rewrite e1 e2 wc -ss in h2; lra.
Qed.

Lemma outer_at a b (u : 'cV[RF]_a) (v : 'cV[RF]_b) i j : (u *m v^T) i j = u i 0 * v j 0.
Proof. by rewrite mxE big_ord1 [v^T _ _]mxE. Qed.
Lemma sum3 (F : 'I_18 -> RF) : (forall i, i != i3 -> i != i9 -> i != i12 -> F i = 0) -> \sum_i F i = F i3 + (F i9 + F i12).
Proof.
move=> h; rewrite (bigD1 i3) // (bigD1 i9) // (bigD1 i12) //= big1 ?addr0 // => i /andP[/andP[a b] c]; exact: h.
Qed.
Lemma col_at (s : RF) (i : 'I_18) j : (j < 18)%N -> of_vec (col i (s%:M : 'M[RF]_18)) j = if j == i :> nat then s else 0.
Proof. by move=> h; rewrite /of_vec insubT !mxE -val_eqE /=; case: eqP. Qed.
Section At.
Variables (x : 'cV[R]_18) (s : R).
Hypothesis hx : gravity x = mkV 0%coqR 0%coqR g_std.
Let hi (i : 'I_18) := to_vec 18 (s6_addState (of_vec x) (of_vec (col i (s%:M : 'M[RF]_18)))).
Let lo (i : 'I_18) := to_vec 18 (s6_subtractState (of_vec x) (of_vec (col i (s%:M : 'M[RF]_18)))).
Let dif (y : 'cV[R]_18) := to_vec 18 (s6_subtractState (of_vec y) (of_vec x)).
Lemma hi_other i j : (j < 18)%N -> (j < 9)%N || (11 < j)%N -> of_vec (hi i) j = (of_vec x j + (if j == i :> nat then s else 0%coqR))%coqR.
Proof.
move=> h1 h2; rewrite /hi of_to_vec // /s6_addState renorm_other; last by case/orP: h2; [left|right].
by rewrite col_at //.
Qed.
Lemma lo_other i j : (j < 18)%N -> (j < 9)%N || (11 < j)%N -> of_vec (lo i) j = (of_vec x j - (if j == i :> nat then s else 0%coqR))%coqR.
Proof.
move=> h1 h2; rewrite /lo of_to_vec // /s6_subtractState renorm_other; last by case/orP: h2; [left|right].
by rewrite col_at //.
Qed.
Lemma seg9 (y : vecn) : seg y 9%N = mkV (y 9%N) (y 10%N) (y 11%N).
Proof. by []. Qed.
Lemma x9 : [/\ of_vec x 9%N = 0%coqR, of_vec x 10%N = 0%coqR & of_vec x 11%N = g_std].
Proof. by move: hx; rewrite /gravity seg9; case=> -> -> ->. Qed.
Lemma hi_gravity i : gravity (hi i) = gr (mkV (if i == i9 then s else 0%coqR) (if 10%N == i :> nat then s else 0%coqR) (g_std + (if 11%N == i :> nat then s else 0%coqR))%coqR).
Proof.
have [a b c] := x9; rewrite /gravity /hi seg_to_vec // /s6_addState renorm_seg seg9 !col_at // a b c !Rplus_0_l.
by rewrite -val_eqE /= eq_sym.
Qed.
Lemma lo_gravity i : gravity (lo i) = gr (mkV (if i == i9 then - s else 0%coqR)%coqR (- (if 10%N == i :> nat then s else 0%coqR))%coqR (g_std - (if 11%N == i :> nat then s else 0%coqR))%coqR).
Proof.
have [a b c] := x9; rewrite /gravity /lo seg_to_vec // /s6_subtractState renorm_seg seg9 !col_at // a b c !Rminus_0_l.
by rewrite -val_eqE /= eq_sym; case: eqP => // _; rewrite Ropp_0.
Qed.
Lemma hi_9 i : of_vec (hi i) 9%N = if i == i9 then tx s else 0%coqR.
Proof.
rewrite -[LHS]/(vx (gravity (hi i))) hi_gravity; case: eqP => [->|_]; last exact: gr_vx0.
by rewrite /= Rplus_0_r tilt.
Qed.
Lemma lo_9 i : of_vec (lo i) 9%N = if i == i9 then (- tx s)%coqR else 0%coqR.
Proof.
rewrite -[LHS]/(vx (gravity (lo i))) lo_gravity; case: eqP => [->|_]; last exact: gr_vx0.
by rewrite /= Ropp_0 Rminus_0_r tilt /= tx_opp.
Qed.
Lemma dif_9 y : of_vec (dif y) 9%N = vx (gr (mkV (of_vec y 9%N - 0)%coqR (of_vec y 10%N - 0)%coqR (of_vec y 11%N - g_std)%coqR)).
Proof. by have [a b c] := x9; rewrite /dif of_to_vec // /s6_subtractState renorm_9 seg9 a b c. Qed.
Lemma dif_hi i : of_vec (dif (hi i)) 9%N = if i == i9 then dxx s else 0%coqR.
Proof.
rewrite dif_9; case: (i =P i9) => [->|/eqP ne]; last by rewrite hi_9 (negbTE ne) Rminus_0_r; exact: gr_vx0.
have := hi_gravity i9; rewrite eqxx /= Rplus_0_r tilt /gravity seg9; case=> -> -> ->.
by rewrite !Rminus_0_r.
Qed.
Lemma dif_lo i : of_vec (dif (lo i)) 9%N = if i == i9 then (- dxx s)%coqR else 0%coqR.
Proof.
rewrite dif_9; case: (i =P i9) => [->|/eqP ne]; last by rewrite lo_9 (negbTE ne) Rminus_0_r; exact: gr_vx0.
have := lo_gravity i9; rewrite eqxx /= Ropp_0 Rminus_0_r tilt /gravity seg9; case=> -> -> ->.
by rewrite !Rminus_0_r -dxx_opp.
Qed.
(** the accelerometer's prediction along x *)
Definition ax (y : 'cV[R]_18) : R := (of_vec y 3%N - of_vec y 12%N + of_vec y 9%N)%coqR.
Definition shift (i : 'I_18) : R := ((if i == i3 then s else 0) - (if i == i12 then s else 0) + (if i == i9 then tx s else 0))%coqR.
Lemma ax_hi i : (ax (hi i) - ax x)%coqR = shift i.
Proof.
have [a _ _] := x9; rewrite /ax (@hi_other i 3) // (@hi_other i 12) // hi_9 a /shift -!val_eqE /= [3%N == _]eq_sym [12%N == _]eq_sym.
by move: (if _ then s else _) (if _ then s else _) (if _ then tx s else _) => *; lra.
Qed.
Lemma ax_lo i : (ax (lo i) - ax x)%coqR = (- shift i)%coqR.
Proof.
have [a _ _] := x9; rewrite /ax (@lo_other i 3) // (@lo_other i 12) // lo_9 a /shift -!val_eqE /= [3%N == _]eq_sym [12%N == _]eq_sym.
do 3![case: ifP => _]; lra.
Qed.
End At.

Lemma imu_ax (m : Meas6) (y : 'cV[R]_18) : m6_tf_set m = false -> (to_vec 6 (imu_h m (of_vec y)) : 'cV[R]_6) 0 0 = ax y.
Proof. move=> e; rewrite mxE /imu_h e /ax; reflexivity. Qed.

(** one correction with an IMU measurement, the uncertainty being the same in all directions and the
    measurement not less certain: the variance of the first component of gravity is negative, whatever is
    measured, whatever the other states are, and whatever the parameters, as long as n + lambda > 0 and
    beta >= alpha^2 *)
Theorem C113_negative (a k b : R) (par : UKFPar RF) (o : S6Obj) (q q' : M6Obj 6) (x : 'cV[R]_18) (p r : R) (z : 'cV[R]_6) (dt : T) x' (P' : 'M[R]_18) :
  set_sigma (R := RF) 18 a k b = Ok par -> (0 : RF) < a ^+ 2 * (18%:R + k) -> (a ^+ 2 : RF) <= b ->
  m6_tf_set (mo_m q) = false -> mo_cov q = (r%:M : 'M[RF]_6) -> (0 < r <= p)%coqR ->
  gravity x = mkV 0%coqR 0%coqR standard ->
  (16 * (18 + up_lambda par) * p <= standard * standard)%coqR ->
  ukf_correct (R := RF) (S := S) (M := M) par o q x (p%:M : 'M[RF]_18) z dt = Ok (q', x', P') ->
  (P' i9 i9 < 0)%coqR.
Proof.
move=> hp hc hb htf hcov hr hx hsmall hrun.
have gp := gpos; have [c0 w0] := cw hp hc.
pose c : RF := 18%:R + up_lambda par; pose w : RF := 1 / 2%:R / c; rewrite -/c -/w in c0 w0.
have dM : default_meas (R := RF) M by [].
pose s : RF := Num.sqrt (c * p); have p0 : (0 : RF) < p by apply/RltP; exact: Rlt_le_trans hr.1 hr.2.
have cp0 : 0 < c * p by apply: mulr_gt0.
have s0 : 0 < s by rewrite sqrtr_gt0.
have ss : s * s = c * p by rewrite -expr2 sqr_sqrtr // ltW.
have LE : llt_L (c *: (p%:M : 'M[RF]_18)) = s%:M by rewrite scale_scalar_mx llt_scalar.
pose J (u : M6Obj 6) : Prop := mo_m u = mo_m q /\ mo_cov u = (r%:M : 'M[RF]_6).
have [||q1 [q2 [yh [yl]]]] := @correct_shape_any RF T 18 0 15 6 S M dM a k b par hp o q x (p%:M) z dt J (fun _ => True) (fun y hh => hh 0 0 = ax y).
- by [].
- move=> u y [ju1 ju2]; eexists; split; first reflexivity; split; first by [].
  by rewrite -(imu_ax y htf) -ju1.
cbv zeta; rewrite -/c LE -/w; set mu := w *: (\sum_i ((yh i - _) + _)); set Sg := mm_cov q2 + _; set X := _ *: _ + _.
move=> [[_ y0] eh el [[_ jc] _]]; rewrite hrun => eP.
have hE i : (yh i - nm_h q1) 0 0 = shift s i.
  by rewrite mxE [X in _ + X]mxE eh y0; exact: (ax_hi s hx i).
have lE i : (yl i - nm_h q1) 0 0 = - shift s i.
  by rewrite mxE [X in _ + X]mxE el y0; exact: (ax_lo s hx i).
have muE : mu 0 0 = 0.
  rewrite /mu mxE summxE big1 ?mulr0 // => i _.
  by rewrite mxE hE lE subrr.
have sh : [/\ shift s i3 = s, shift s i9 = tx s, shift s i12 = - s & forall i, i != i3 -> i != i9 -> i != i12 -> shift s i = 0].
  rewrite /shift /=; split; try (change (@GRing.opp RF) with Ropp); try lra.
  by move=> i /negbTE -> /negbTE -> /negbTE ->; change (0 - 0 + 0 = 0)%coqR; lra.
have [f3 f9 f12 f0] := sh.
have SE : Sg 0 0 = (r + w * (2 * (2 * (s * s) + tx s * tx s)))%coqR.
  rewrite /Sg mxE -[mm_cov q2]/(mo_cov q2) jc [X in X + _]mxE [X in _ + X]mxE [X in _ + (X + _)]mxE [X in _ + (_ + X)]mxE outer_at muE mulr0 mulr0 addr0 eqxx mulr1n.
  rewrite summxE (eq_bigr (fun i => shift s i * shift s i + (- shift s i) * (- shift s i))); last first.
    by move=> i _; rewrite mxE !outer_at hE lE.
  rewrite (sum3 (F := fun i => shift s i * shift s i + (- shift s i) * (- shift s i))); last first.
    by move=> i n3 n9 n12; rewrite f0 // oppr0 !mulr0 addr0.
  rewrite f3 f9 f12; change (r + w * (s * s + - s * - s + (tx s * tx s + - tx s * - tx s + (- s * - s + - - s * - - s))) = r + w * (2 * (2 * (s * s) + tx s * tx s)))%coqR; ring.
have at9 (y : 'cV[R]_18) : y i9 0 = of_vec y 9%N by rewrite /of_vec insubT; congr (y _ _); apply: val_inj.
have XE : X i9 0 = (w * (dxx s * tx s + dxx s * tx s))%coqR.
  rewrite /X mxE [X in X + _]mxE outer_at [X in _ * (_ * X) + _]mxE muE oppr0 mulr0 mulr0 add0r mxE summxE.
  have dh i : (sm_sub (s := S) o (sm_add (s := S) o x (col i (s%:M))) x) i9 0 = if i == i9 then dxx s else 0.
    by rewrite at9; exact: (dif_hi s hx i).
  have dl i : (sm_sub (s := S) o (sm_sub (s := S) o x (col i (s%:M))) x) i9 0 = if i == i9 then - dxx s else 0.
    by rewrite at9; exact: (dif_lo s hx i).
  rewrite (bigD1 i9) // big1 ?addr0; last first.
    by move=> i /negbTE ni; rewrite mxE !outer_at dh dl ni !mul0r addr0.
  rewrite mxE !outer_at dh dl eqxx.
  have -> : (yh i9 - nm_h q1 - mu) 0 0 = shift s i9 by rewrite mxE hE mxE muE oppr0 addr0.
  have -> : (yl i9 - nm_h q1 - mu) 0 0 = - shift s i9 by rewrite mxE lE mxE muE oppr0 addr0.
  rewrite f9; change (w * (dxx s * tx s + - dxx s * - tx s + 0) = w * (dxx s * tx s + dxx s * tx s))%coqR; ring.
have pS : pd Sg.
  rewrite /Sg addrC; apply: psd_pdD; last first.
    have -> : mm_cov q2 = (r%:M : 'M[RF]_6) by exact: jc.
    by rewrite -scalemx1; apply: pdZ; [apply/RltP; exact: hr.1|exact: pd1].
  apply: psdD; last by apply: psdZ; [rewrite subr_ge0|exact: psd_outer].
  by apply: psdZ; [exact: ltW|apply: psd_sum => i; apply: psdD; exact: psd_outer].
have uS := pd_unit pS; have [sS _] := pS.
move: eP; rewrite /inverse uS; cbn [Outcome.obind]; case=> _ _ eP.
have PE : P' i9 i9 = p - (X *m invmx Sg *m X^T) i9 i9.
  rewrite eP mxE [X in X + _]mxE eqxx mulr1n [X in _ + X]mxE; congr (_ - _).
  rewrite trmx_mul trmx_inv sS !mulmxA; congr (_ i9 i9).
  by rewrite -[X *m invmx Sg *m Sg]mulmxA mulVmx // mulmx1.
have cs := cauchy_row X i9 0 pS.
have pos : Rlt 0%coqR (Sg 0 0).
  rewrite SE; have h1 := hr.1; have h2 : (0 < w)%coqR by apply/RltP.
  by have h3 : (0 <= w * (2 * (2 * (s * s) + tx s * tx s)))%coqR; [apply: Rmult_le_pos; nra|lra].
have c0' : (0 < c)%coqR by apply/RltP.
have s0' : (0 < s)%coqR by apply/RltP.
have ss' : (s * s = c * p)%coqR := ss.
have cE : c = (18 + up_lambda par)%coqR.
  by rewrite /c; congr (_ + _); rewrite natrE; rewrite INR_IZR_INZ.
have wc : (2 * w * c = 1)%coqR.
  have e2 : (2%:R : RF) = 2%coqR by rewrite natrE INR_IZR_INZ.
  by rewrite -e2; change (2%:R * w * c = 1 :> RF); rewrite /w mul1r mulrA divff ?pnatr_eq0 // mul1r mulVf // gt_eqF.
have b1 : (16 * (s * s) <= g_std * g_std)%coqR.
  by rewrite ss'; move: hsmall; rewrite -cE -[standard]/g_std -Rmult_assoc.
have b2 : (0 <= c * r <= s * s)%coqR.
  by rewrite ss'; case: hr => h1 h2; split; [apply: Rmult_le_pos; lra|apply: Rmult_le_compat_l; lra].
have tm := too_much s0' b1 b2.
have cs' : Rle (Rmult (X i9 0) (X i9 0)) (Rmult ((X *m invmx Sg *m X^T) i9 i9) (Sg 0 0)) by move/RleP: cs; rewrite expr2.
have fin := final c0' wc ss' XE SE cs' pos tm.
by rewrite PE; exact: (Rlt_minus _ _ fin).
Qed.

(** the part that holds, for the library's own classes: corrections are defined, the covariance stays
    symmetric and no variance grows *)
Theorem C113_six_d_partial (a k b : R) (par : UKFPar RF) (o : S6Obj) kk (q : M6Obj kk) (x : 'cV[R]_18) (P : 'M[R]_18) (z : 'cV[R]_kk) (dt : T) :
  set_sigma (R := RF) 18 a k b = Ok par -> (0 : RF) < a ^+ 2 * (18%:R + k) -> (a ^+ 2 : RF) <= b ->
  pd (R := RF) (mo_cov q) ->
  exists (q' : M6Obj kk) x' (P' : 'M[R]_18), ukf_correct (R := RF) (S := S) (M := six_d_meas T kk) par o q x P z dt = Ok (q', x', P')
    /\ gravity_std x' /\ (sym (R := RF) P -> sym (R := RF) P') /\ lle (R := RF) P' P.
Proof.
move=> hp hc hb pQ.
have dM : default_meas (R := RF) (six_d_meas T kk) by [].
have [||q' [x' [P' [e [_ [h1 h2]]]]]] := @C113_correct_partial RF T 18 0 15 kk S (six_d_meas T kk) dM a k b par hp (fun u : M6Obj kk => mo_cov u = mo_cov q) o q x P z dt _ _ hc hb.
- by [].
- by move=> u y ju; eexists; split; first reflexivity; split => //; rewrite -ju in pQ.
by exists q', x', P'; split => //; split => //; exact: (C85_correct_partial e).
Qed.

(** a UKF with default parameters, standard deviation 1 in every direction, at rest and level *)
Theorem C113_refuted (dt : T) : ~ C113_claim.
Proof.
move=> H; have [par hp] := default_ok.
pose o := s6_obj_new true true; pose q : M6Obj 6 := mkM6Obj (imu_new true) (fun _ => 0%coqR) (1%:M : 'M[RF]_6) (newASet 6) None None.
pose x : 'cV[R]_18 := to_vec 18 (put_seg (fun _ => 0%coqR) s6_GX (mkV 0%coqR 0%coqR g_std)).
have hx : gravity x = mkV 0%coqR 0%coqR g_std by rewrite /gravity seg_to_vec // seg_put_seg.
have p1 n : pd (1%:M : 'M[RF]_n) := pd1 _ n.
have hb := default_beta.
have [q' [x' [P' [e _]]]] := @C113_six_d_partial _ _ _ par o 6 q x 1%:M 0 dt hp default_pos hb (p1 6%N).
have gx : gravity_std x.
  by left; rewrite hx norm_z //; apply: Rlt_le; exact: gpos.
have pP := H par o q q' x 1%:M 0 dt x' P' hp (p1 18%N) (p1 6%N) gx e.
have := @psd_diag RF 18 P' i9 pP; rewrite leNgt => /negP; apply; apply/RltP.
apply: (@C113_negative _ _ _ par o q q' x 1 1 0 dt x' P' hp default_pos hb _ _ _ hx _ e) => //.
- by split; [exact: Rlt_0_1|exact: Rle_refl].
have [_ cE _ _ _] := set_sigma_ok hp.
have -> : (18 + up_lambda par = 18 / 1000000)%coqR.
  have e18 : (18%:R : RF) = 18%coqR by rewrite natrE INR_IZR_INZ.
  rewrite -e18; apply: (etrans cE); rewrite addr0 expr2.
  have e1000 : (1000%:R : RF) = 1000%coqR by rewrite natrE INR_IZR_INZ; congr IZR.
  set v : RF := 1 / 1000%:R.
  have hu : (v * 1000 = 1)%coqR.
    by rewrite -e1000; change (v * 1000%:R = 1 :> RF); rewrite /v divfK // pnatr_eq0.
  have -> : v = (1 / 1000)%coqR by lra.
  by rewrite e18; change (1 / 1000 * (1 / 1000) * 18 = 18 / 1000000)%coqR; lra.
by rewrite /standard; lra.
Qed.
End Step.
