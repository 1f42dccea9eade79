(** Algebra of the Kalman update. *)
From mathcomp Require Import all_ssreflect all_algebra.
From Verif Require Import McRing LinAlg.
Set Implicit Arguments.
Unset Strict Implicit.
Unset Printing Implicit Defensive.
Import GRing.Theory Num.Theory Order.TTheory.
Local Open Scope ring_scope.

Section Gain.
Variable R : realFieldType.
Add Field Rfield : (mc_field R).
Variables n k : nat.
Variables (P : 'M[R]_n) (C : 'M[R]_(k, n)) (Q : 'M[R]_k).

Definition innov : 'M[R]_k := C *m (P *m C^T) + Q.
Definition gain : 'M[R]_(n, k) := P *m C^T *m invmx innov.
(** covariance of x + L (z - C x) for an arbitrary gain L *)
Definition joseph (L : 'M[R]_(n, k)) : 'M[R]_n :=
  (1%:M - L *m C) *m P *m (1%:M - L *m C)^T + L *m Q *m L^T.

Lemma innov_sym : sym P -> sym Q -> sym innov.
Proof. by move=> sP sQ; rewrite /innov mulmxA; apply: symD => //; apply: sym_congr. Qed.
Lemma innov_pd : psd P -> pd Q -> pd innov.
Proof. by move=> pP pQ; rewrite /innov mulmxA; apply: psd_pdD => //; apply: psd_congr. Qed.

Lemma gainS : innov \in unitmx -> gain *m innov = P *m C^T.
Proof. by move=> u; rewrite /gain -mulmxA mulVmx // mulmx1. Qed.
Lemma gain_unique L : innov \in unitmx -> L *m innov = P *m C^T -> L = gain.
Proof. by move=> u h; rewrite /gain -h -mulmxA mulmxV // mulmx1. Qed.
Lemma Sgain : sym P -> sym Q -> innov \in unitmx -> innov *m gain^T = C *m P.
Proof.
move=> sP sQ u; rewrite -[LHS]trmxK trmx_mul trmxK (innov_sym sP sQ) gainS //.
by rewrite trmx_mul trmxK sP.
Qed.

Lemma joseph_expand L : joseph L = P - L *m C *m P - P *m C^T *m L^T + L *m innov *m L^T.
Proof.
rewrite /joseph /innov linearB /= trmx1 trmx_mul mulmxBl mul1mx !mulmxBr !mulmx1.
rewrite mulmxDr mulmxDl !mulmxA.
by rewrite !mulNmx mulmxDl; mxgroup R.
Qed.

Lemma joseph_diff L : sym P -> sym Q -> innov \in unitmx ->
  joseph L - (1%:M - gain *m C) *m P = (L - gain) *m innov *m (L - gain)^T.
Proof.
move=> sP sQ u; rewrite joseph_expand mulmxBl mul1mx -[gain *m C *m P]mulmxA -Sgain //.
rewrite [(L - gain)^T]linearB /= mulmxBl gainS // !(mulmxBl, mulmxBr) -mulmxA -Sgain // !mulmxA gainS //.
by mxgroup R.
Qed.

Lemma post_joseph : sym P -> sym Q -> innov \in unitmx -> (1%:M - gain *m C) *m P = joseph gain.
Proof.
move=> sP sQ u; have := joseph_diff gain sP sQ u.
by rewrite subrr !mul0mx => /eqP; rewrite subr_eq0 => /eqP.
Qed.
Lemma post_drop : sym P -> sym Q -> innov \in unitmx -> P - (1%:M - gain *m C) *m P = gain *m innov *m gain^T.
Proof.
move=> sP sQ u; have := joseph_diff 0 sP sQ u.
by rewrite /joseph !mul0mx subr0 addr0 mul1mx trmx1 mulmx1 sub0r linearN /= mulmxN mulNmx mulNmx opprK.
Qed.

Lemma post_psd : psd P -> psd Q -> innov \in unitmx -> psd ((1%:M - gain *m C) *m P).
Proof.
move=> pP pQ u; rewrite post_joseph //; [|by case: pP|by case: pQ].
by apply: psdD; apply: psd_congr.
Qed.
Lemma post_lle : psd P -> psd Q -> innov \in unitmx -> lle ((1%:M - gain *m C) *m P) P.
Proof.
move=> pP pQ u; have [sP _] := pP; have [sQ _] := pQ.
rewrite /lle post_drop //; apply: psd_congr.
by rewrite /innov mulmxA; apply: psdD => //; apply: psd_congr.
Qed.
Lemma post_optimal L : psd P -> psd Q -> innov \in unitmx -> lle ((1%:M - gain *m C) *m P) (joseph L).
Proof.
move=> pP pQ u; have [sP _] := pP; have [sQ _] := pQ.
rewrite /lle joseph_diff //; apply: psd_congr.
by rewrite /innov mulmxA; apply: psdD => //; apply: psd_congr.
Qed.
(** the optimal gain is the only one when the innovation covariance is positive definite *)
Lemma post_optimal_unique L : psd P -> pd Q -> lle (joseph L) ((1%:M - gain *m C) *m P) -> L = gain.
Proof.
move=> pP pQ h; have pS := innov_pd pP pQ; have u := pd_unit pS.
have [sP _] := pP; have [sQ _] := pQ.
apply/eqP; rewrite -subr_eq0 -trmx_eq0; apply/eqP/matrixP => i j.
have [_ /(_ (delta_mx j 0))] := h; rewrite -opprB qfN joseph_diff // qf_congr oppr_ge0 => h1.
have e : (L - gain)^T *m delta_mx j 0 = 0 :> 'cV_k.
  by apply/eqP; apply: contraT => ne; have [_ /(_ _ ne)] := pS; rewrite ltNge h1.
by move/matrixP/(_ i 0): e; rewrite -colE !mxE.
Qed.
End Gain.

(** two measurements one after the other *)
Section Sequential.
Variable R : realFieldType.
Add Field Rfield2 : (mc_field R).
Variables n k1 k2 : nat.
Variables (P : 'M[R]_n) (C1 : 'M[R]_(k1, n)) (Q1 : 'M[R]_k1) (C2 : 'M[R]_(k2, n)) (Q2 : 'M[R]_k2).
Hypotheses (pP : psd P) (p1 : pd Q1) (p2 : pd Q2).
Let C := col_mx C1 C2.
Let Q := block_mx Q1 0 0 Q2.
Let K1 := gain P C1 Q1.
Let P1 := (1%:M - K1 *m C1) *m P.
Let K2 := gain P1 C2 Q2.

Lemma block_pd : pd Q.
Proof.
have [s1 h1] := p1; have [s2 h2] := p2; split; first by rewrite /sym /Q tr_block_mx !trmx0 s1 s2.
move=> x; rewrite -[x]vsubmxK; set a := usubmx x; set b := dsubmx x => ne.
have e : qf Q (col_mx a b) = qf Q1 a + qf Q2 b.
  rewrite !qfE /Q mul_block_col !mul0mx addr0 add0r /dot tr_col_mx mul_row_col mxE.
  by [].
rewrite e; case: (a =P 0) => [ea|/eqP na]; last by rewrite ltr_paddr ?h1 //; have [_] := pd_psd p2.
case: (b =P 0) => [eb|/eqP nb]; last by rewrite ltr_paddl ?h2 //; have [_] := pd_psd p1.
by move: ne; rewrite ea eb col_mx0 eqxx.
Qed.
Let u1 : innov P C1 Q1 \in unitmx. Proof. exact: pd_unit (innov_pd _ pP p1). Qed.
Let pP1 : psd P1. Proof. by apply: post_psd => //; exact: pd_psd. Qed.
Let u2 : innov P1 C2 Q2 \in unitmx. Proof. exact: pd_unit (innov_pd _ pP1 p2). Qed.
Let u : innov P C Q \in unitmx. Proof. exact: pd_unit (innov_pd _ pP block_pd). Qed.

Lemma block_gain Ka Kb :
  Ka *m (C1 *m (P *m C1^T) + Q1) + Kb *m (C2 *m (P *m C1^T)) = P *m C1^T ->
  Ka *m (C1 *m (P *m C2^T)) + Kb *m (C2 *m (P *m C2^T) + Q2) = P *m C2^T ->
  row_mx Ka Kb = gain P C Q.
Proof.
move=> h1 h2; apply: gain_unique; first exact: u.
rewrite /innov /C /Q tr_col_mx mul_mx_row mul_col_row add_block_mx !addr0 mul_row_block.
by rewrite h1 h2.
Qed.

Lemma seq_gain : row_mx (K1 - K2 *m C2 *m K1) K2 = gain P C Q.
Proof.
have h1 : K1 *m (C1 *m (P *m C1^T) + Q1) = P *m C1^T by exact: gainS.
have h2 : K2 *m (C2 *m (P1 *m C2^T) + Q2) = P1 *m C2^T by exact: gainS.
apply: block_gain.
  by rewrite mulmxBl h1 -[K2 *m C2 *m K1 *m _]mulmxA h1 -!mulmxA subrK.
have e1 : P1 *m C2^T = P *m C2^T - K1 *m (C1 *m (P *m C2^T)).
  by rewrite /P1 !mulmxBl mul1mx !mulmxA.
rewrite mulmxBl -addrA [X in _ + X]addrC -[K2 *m C2 *m K1 *m _]mulmxA.
rewrite -[K2 *m C2 *m _]mulmxA -mulmxBr.
have -> : C2 *m (P *m C2^T) + Q2 - C2 *m (K1 *m (C1 *m (P *m C2^T))) = C2 *m (P1 *m C2^T) + Q2.
  by rewrite e1 mulmxBr addrAC.
by rewrite h2 e1 addrC subrK.
Qed.

Lemma seq_state (x : 'cV[R]_n) z1 z2 :
  let x1 := x + K1 *m (z1 - C1 *m x) in
  x1 + K2 *m (z2 - C2 *m x1) = x + gain P C Q *m (col_mx z1 z2 - C *m x).
Proof.
move=> x1; rewrite -seq_gain /C mul_col_mx opp_col_mx add_col_mx mul_row_col /x1.
move: (z1 - C1 *m x) K1 K2 => d L1 L2.
rewrite [L2 *m (z2 - _)]mulmxBr [C2 *m (x + _)]mulmxDr [L2 *m (_ + _)]mulmxDr [L2 *m (z2 - _)]mulmxBr mulmxBl -!mulmxA.
by mxgroup R.
Qed.

Lemma seq_cov : (1%:M - K2 *m C2) *m P1 = (1%:M - gain P C Q *m C) *m P.
Proof.
rewrite -seq_gain /C mul_row_col /P1 mulmxA; congr (_ *m _); move: K1 K2 => L1 L2.
rewrite mulmxBl mul1mx mulmxBr mulmx1 mulmxBl -!mulmxA.
by mxgroup R.
Qed.
End Sequential.
