(** The unscented transform, as algebra. *)
From mathcomp Require Import all_ssreflect all_algebra.
From Verif Require Import McRing LinAlg.
Set Implicit Arguments.
Unset Strict Implicit.
Unset Printing Implicit Defensive.
Import GRing.Theory Num.Theory Order.TTheory.
Local Open Scope ring_scope.

Section UT.
Variable R : realFieldType.
Add Field Rfield : (mc_field R).
Variables (n k N : nat).

Lemma sum_centered (h l : 'I_N -> 'cV[R]_n) (h' l' : 'I_N -> 'cV[R]_k) m m' :
  \sum_i ((h i - m) *m (h' i - m')^T + (l i - m) *m (l' i - m')^T)
  = \sum_i (h i *m (h' i)^T + l i *m (l' i)^T) - (\sum_i (h i + l i)) *m m'^T - m *m (\sum_i (h' i + l' i))^T
    + (2 * N)%:R *: (m *m m'^T).
Proof.
have tB a b (A B : 'M[R]_(a, b)) : (A - B)^T = A^T - B^T by rewrite linearB.
have tD a b (A B : 'M[R]_(a, b)) : (A + B)^T = A^T + B^T by rewrite linearD.
have tS (F : 'I_N -> 'cV[R]_k) : (\sum_i F i)^T = \sum_i (F i)^T by rewrite linear_sum.
have e i : (h i - m) *m (h' i - m')^T + (l i - m) *m (l' i - m')^T
   = (h i *m (h' i)^T + l i *m (l' i)^T) - (h i + l i) *m m'^T - m *m (h' i + l' i)^T + 2%:R *: (m *m m'^T).
  by rewrite !tB !tD !mulmxBl !mulmxBr !mulmxDl !mulmxDr scaler_nat mulr2n; mxgroup R.
under eq_bigr do rewrite e.
rewrite big_split /= big_split /= big_split /= !sumrN mulmx_suml tS mulmx_sumr /=.
congr (_ - _ - _ + _).
by rewrite sumr_const card_ord -scaler_nat scalerA -natrM mulnC.
Qed.

Variables (c alpha beta : R).
Hypothesis c0 : c != 0.
Let w : R := 1 / 2%:R / c.
Let wm0 : R := (c - N%:R) / c.
Let wc0 : R := wm0 + 1 - alpha ^+ 2 + beta.

Lemma wm_sum : wm0 + (2 * N)%:R * w = 1.
Proof.
have n2 : (2%:R : R) != 0 by rewrite pnatr_eq0.
rewrite /wm0 /w natrM mulrA [2%:R * _]mulrC -[N%:R * 2%:R * _]mulrA mul1r divff // mulr1.
by rewrite -mulrDl subrK divff.
Qed.
Lemma wc_sum : wc0 + (2 * N)%:R * w = 2%:R - alpha ^+ 2 + beta.
Proof.
have g (a b x y : R) : a + x = 1 -> a + 1 - b + y + x = 2%:R - b + y.
  move=> h; have -> : a + 1 - b + y + x = (a + x) + 1 - b + y by mcring R.
  by rewrite h.
exact: g wm_sum.
Qed.

Lemma ut_mean (y0 : 'cV[R]_n) (yh yl : 'I_N -> 'cV[R]_n) :
  wm0 *: y0 + w *: (\sum_i (yh i + yl i)) = y0 + w *: (\sum_i ((yh i - y0) + (yl i - y0))).
Proof.
have -> : \sum_i ((yh i - y0) + (yl i - y0)) = \sum_i (yh i + yl i) - (2 * N)%:R *: y0.
  have -> : (2 * N)%:R *: y0 = \sum_(i < N) (y0 + y0).
    by rewrite sumr_const card_ord -mulr2n -mulrnA scaler_nat.
  by rewrite -sumrB; apply: eq_bigr => i _; rewrite opprD addrACA.
rewrite scalerBr scalerA addrA addrAC; congr (_ + _).
rewrite -[X in _ = X - _]scale1r -scalerBl; congr (_ *: _).
by apply/eqP; rewrite eq_sym subr_eq [w * _]mulrC wm_sum.
Qed.

(** the sample covariance is that of the deviations from the central point, plus a multiple of the
    square of the shift of the mean *)
Lemma ut_cov (h l : 'I_N -> 'cV[R]_n) (h' l' : 'I_N -> 'cV[R]_k) :
  let m := w *: (\sum_i (h i + l i)) in let m' := w *: (\sum_i (h' i + l' i)) in
  wc0 *: ((- m) *m (- m')^T) + w *: (\sum_i ((h i - m) *m (h' i - m')^T + (l i - m) *m (l' i - m')^T))
  = w *: (\sum_i (h i *m (h' i)^T + l i *m (l' i)^T)) + (beta - alpha ^+ 2) *: (m *m m'^T).
Proof.
move=> m m'; rewrite sum_centered scalerDr !scalerBr.
have -> : w *: ((\sum_i (h i + l i)) *m m'^T) = m *m m'^T by rewrite scalemxAl.
have -> : w *: (m *m (\sum_i (h' i + l' i))^T) = m *m m'^T by rewrite scalemxAr -linearZ.
rewrite linearN /= mulNmx mulmxN opprK scalerA.
set S := w *: _; set X := m *m _.
have -> : beta - alpha ^+ 2 = wc0 + w * (2 * N)%:R - 1 - 1 by rewrite [w * _]mulrC wc_sum; mcring R.
clearbody wc0; rewrite !scalerBl scalerDl scale1r; mxgroup R.
Qed.

(** the cross covariance with deviations from the central point that cancel in pairs *)
Lemma ut_cross (h l : 'I_N -> 'cV[R]_n) (h' l' : 'I_N -> 'cV[R]_k) m' a :
  \sum_i (h i + l i) = 0 ->
  a *: ((0 : 'cV[R]_n) *m (- m')^T) + w *: (\sum_i (h i *m (h' i - m')^T + l i *m (l' i - m')^T))
  = w *: \sum_i (h i *m (h' i)^T + l i *m (l' i)^T).
Proof.
move=> z; rewrite mul0mx scaler0 add0r; congr (_ *: _).
have := sum_centered h l h' l' 0 m'; rewrite z !mul0mx scaler0 addr0 !subr0 => <-.
by apply: eq_bigr => i _; rewrite !subr0.
Qed.
End UT.

(** ** Positive semi-definiteness *)
Section PSD.
Variable R : realFieldType.
Lemma psd_sum (I : Type) (r : seq I) n (F : I -> 'M[R]_n) : (forall i, psd (F i)) -> psd (\sum_(i <- r) F i).
Proof. by move=> h; elim/big_rec: _ => [|i x _]; [exact: psd0|apply: psdD]. Qed.

(** Schur complement *)
Lemma schur_psd n k (P : 'M[R]_n) (X : 'M[R]_(n, k)) (S : 'M[R]_k) :
  psd (block_mx P X X^T S) -> pd S -> psd (P - X *m invmx S *m X^T) /\ lle (P - X *m invmx S *m X^T) P.
Proof.
move=> [sJ pJ] pS; have uS := pd_unit pS; have [sS _] := pS; have pI := pd_inv pS.
have sP : sym P.
  have := congr1 (@ulsubmx R n k n k) sJ; by rewrite tr_block_mx !block_mxKul.
have pX : psd (X *m invmx S *m X^T) by apply: psd_congr; apply: pd_psd.
have [sX qX] := pX.
split; last by rewrite /lle opprB addrC subrK.
split; first exact: symB.
move=> v; have := pJ (col_mx v (- (invmx S *m X^T *m v))).
set y := invmx S *m X^T *m v.
have ey : S *m y = X^T *m v by rewrite /y !mulmxA mulmxV // mul1mx.
rewrite !qfE mul_block_col !mulmxN ey subrr /dot tr_col_mx mul_row_col mulmx0 addr0.
by rewrite mulmxBl /y !mulmxA.
Qed.
Lemma schur_pd n k (P : 'M[R]_n) (X : 'M[R]_(n, k)) (S : 'M[R]_k) :
  pd (block_mx P X X^T S) -> pd S -> pd (P - X *m invmx S *m X^T).
Proof.
move=> pJ pS; have uS := pd_unit pS; have [[s _] _] := schur_psd (pd_psd pJ) pS; split => // v v0.
have [_ h] := pJ; have := h (col_mx v (- (invmx S *m X^T *m v))).
set y := invmx S *m X^T *m v.
have ey : S *m y = X^T *m v by rewrite /y !mulmxA mulmxV // mul1mx.
rewrite !qfE mul_block_col !mulmxN ey subrr /dot tr_col_mx mul_row_col mulmx0 addr0.
rewrite mulmxBl /y !mulmxA; apply; apply: contraNneq v0 => e.
by have := congr1 (@usubmx R n k 1) e; rewrite col_mxKu linear0 => ->.
Qed.
Lemma qf_block n k (P : 'M[R]_n) X Y (S : 'M[R]_k) v : qf (block_mx P X Y S) (col_mx v 0) = qf P v.
Proof. by rewrite !qfE mul_block_col !mulmx0 !addr0 /dot tr_col_mx mul_row_col trmx0 mul0mx addr0. Qed.
End PSD.
