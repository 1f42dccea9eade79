(** The spectral theorem for real symmetric matrices (over any real closed field): the contract of
    Eigen::SelfAdjointEigenSolver can always be met. *)
From mathcomp Require Import all_ssreflect all_algebra all_fingroup.
From mathcomp.real_closed Require Import complex.
From Verif Require Import LinAlg.
Import GRing.Theory Num.Theory Order.TTheory.
Set Implicit Arguments. Unset Strict Implicit. Unset Printing Implicit Defensive.
Local Open Scope ring_scope.

Section Spectral.
Variable R : rcfType.

Lemma real_eigen n (A : 'M[R]_n.+1) : sym A -> exists a (u : 'cV[R]_n.+1), u != 0 /\ A *m u = a *: u.
Proof.
move=> sA; pose C := @real_complex R; pose Ac := map_mx C A.
have [l /eigenvalueP [v hv v0]] := Theorem7' Ac (ltn0Sn n).
pose x : 'cV[R]_n.+1 := \col_i complex.Re (v 0 i); pose y : 'cV[R]_n.+1 := \col_i complex.Im (v 0 i).
pose a := complex.Re l; pose b := complex.Im l.
have ReM (r : R) (z : R[i]) : complex.Re (z * r%:C)%C = complex.Re z * r.
  by case: z => p q /=; rewrite mulr0 subr0.
have ImM (r : R) (z : R[i]) : complex.Im (z * r%:C)%C = complex.Im z * r.
  by case: z => p q /=; rewrite mulr0 add0r.
have ReS (F : 'I_n.+1 -> R[i]) : complex.Re (\sum_i F i) = \sum_i complex.Re (F i) by exact: raddf_sum.
have ImS (F : 'I_n.+1 -> R[i]) : complex.Im (\sum_i F i) = \sum_i complex.Im (F i) by exact: raddf_sum.
have ex : A *m x = a *: x - b *: y.
  apply/colP=> i; have := congr1 (fun w : 'rV_n.+1 => complex.Re (w 0 i)) hv.
  rewrite !mxE ReS => E.
  have -> : \sum_j A i j * x j 0 = \sum_j complex.Re (v 0 j * Ac j i).
    by apply: eq_bigr => j _; rewrite !mxE ReM mulrC -[in A i j]sA mxE.
  by rewrite E /a /b; case: (l) (v 0 i) => p q [s t] /=.
have ey : A *m y = a *: y + b *: x.
  apply/colP=> i; have := congr1 (fun w : 'rV_n.+1 => complex.Im (w 0 i)) hv.
  rewrite !mxE ImS => E.
  have -> : \sum_j A i j * y j 0 = \sum_j complex.Im (v 0 j * Ac j i).
    by apply: eq_bigr => j _; rewrite !mxE ImM mulrC -[in A i j]sA mxE.
  by rewrite E /a /b; case: (l) (v 0 i) => p q [s t] /=.
have b0 : b = 0.
  have := bf_sym x y sA; rewrite !bfE ex ey.
  rewrite dotDr !dotDr -scaleNr !dotZr [dot y x]dotC => /(congr1 (fun t => t - a * dot x y)).
  rewrite [_ + b * _]addrC addrK [a * _ + _]addrC addrK mulNr => /eqP; rewrite -subr_eq0 opprK -mulrDr mulf_eq0 => /orP [/eqP //|].
  rewrite paddr_eq0 ?dot_ge0 // !dot_eq0 => /andP [/eqP x0 /eqP y0]; case/eqP: v0; apply/rowP=> i; rewrite mxE.
  move/colP/(_ i): x0; move/colP/(_ i): y0; rewrite !mxE; by case: (v 0 i) => p q /= -> ->.
move: ex ey; rewrite b0 !scale0r subr0 addr0 => ex ey.
have [x0|x0] := eqVneq x 0; last by exists a, x.
have [y0|y0] := eqVneq y 0; last by exists a, y.
case/eqP: v0; apply/rowP=> i; rewrite mxE; move/colP/(_ i): x0; move/colP/(_ i): y0; rewrite !mxE; by case: (v 0 i) => p q /= -> ->.
Qed.

Lemma unit_eigen n (A : 'M[R]_n.+1) : sym A -> exists a (u : 'cV[R]_n.+1), dot u u = 1 /\ A *m u = a *: u.
Proof.
move=> /real_eigen [a [u [u0 hu]]]; exists a, ((Num.sqrt (dot u u))^-1 *: u); split; last by rewrite -scalemxAr hu !scalerA mulrC.
have h := dot_gt0 u0; rewrite dotZl dotZr mulrA -invfM -expr2 sqr_sqrtr ?ltW // mulVf ?gt_eqF //.
Qed.

(** a reflection that takes e0 to a given unit vector *)
Definition e0 n : 'cV[R]_n.+1 := delta_mx 0 0.
Lemma householder n (u : 'cV[R]_n.+1) : dot u u = 1 -> exists H : 'M[R]_n.+1, [/\ H^T = H, H *m H = 1%:M & H *m e0 n = u].
Proof.
move=> hu; have de (w : 'cV[R]_n.+1) : dot w (e0 n) = w 0 0.
  by rewrite dotE (bigD1 0) //= big1 ?addr0 => [|i i0]; rewrite mxE ?eqxx ?mulr1 // (negPf i0) mulr0.
have [->|ne] := eqVneq u (e0 n); first by exists 1%:M; rewrite trmx1 !mul1mx.
pose v := u - e0 n; have v0 : v != 0 by rewrite subr_eq0.
have dv := dot_gt0 v0; pose c := 2%:R / dot v v; exists (1%:M - c *: (v *m v^T)).
have vv : v^T *m v = (dot v v)%:M by apply/matrixP=> i j; rewrite !ord1 [RHS]mxE eqxx mulr1n.
split.
- by rewrite linearB linearZ /= trmx1 trmx_mul trmxK.
- rewrite mulmxBl mul1mx mulmxBr mulmx1 -!scalemxAl -!scalemxAr -mulmxA [v^T *m (v *m _)]mulmxA vv mul_scalar_mx -scalemxAr !scalerA.
  have -> : c * (c * dot v v) = c + c by rewrite /c divfK ?gt_eqF // mulr_natr mulr2n.
  rewrite scalerDl opprB; move: (c *: _) => Q; by rewrite addrK subrK.
- have -> : (1%:M - c *: (v *m v^T)) *m e0 n = e0 n - (c * dot v (e0 n)) *: v.
    by rewrite mulmxBl mul1mx -scalemxAl -mulmxA; congr (_ - _); rewrite [v^T *m _]mx11_scalar mul_mx_scalar scalerA.
  have d1 : dot v v = - (2%:R * dot v (e0 n)).
    have ee : dot (e0 n) (e0 n) = 1 by rewrite de mxE !eqxx.
    have ve : dot v (e0 n) = dot u (e0 n) - 1 by rewrite /v dotDl -[- e0 n]scaleN1r dotZl ee mulN1r.
    have vu : dot v u = 1 - dot u (e0 n) by rewrite /v dotDl -[- e0 n]scaleN1r dotZl hu [dot (e0 n) u]dotC mulN1r.
    have -> : dot v v = dot v u - dot v (e0 n) by rewrite {2}/v dotDr -[- e0 n]scaleN1r dotZr mulN1r.
    by rewrite ve vu mulr_natl -mulNrn opprB mulr2n.
  have nz : 2%:R * dot v (e0 n) != 0 by rewrite -oppr_eq0 -d1 gt_eqF.
  have -> : c * dot v (e0 n) = -1 by rewrite /c mulrAC d1 invrN mulrN divff.
  by rewrite scaleN1r opprK addrC /v subrK.
Qed.

(** orthogonal diagonalisation *)
Definition ortho n (V : 'M[R]_n) : Prop := V^T *m V = 1%:M /\ V *m V^T = 1%:M.
Lemma ortho_mul n (V W : 'M[R]_n) : ortho V -> ortho W -> ortho (V *m W).
Proof.
move=> [a b] [c d]; split; rewrite trmx_mul mulmxA.
- by rewrite -[W^T *m V^T *m V]mulmxA a mulmx1.
- by rewrite -[V *m W *m W^T]mulmxA d mulmx1.
Qed.
Theorem spectral n (A : 'M[R]_n) : sym A -> exists (V : 'M[R]_n) (d : 'rV[R]_n), ortho V /\ A = V *m diag_mx d *m V^T.
Proof.
elim: n A => [|n IH] A sA.
  by exists 0, 0; split; [split; apply/matrixP=> [[]]|apply/matrixP=> [[]]].
have [a [u [hu Au]]] := unit_eigen sA; have [H [HT HH He]] := householder hu.
have sB0 : (H *m A *m H)^T = H *m A *m H by rewrite !trmx_mul HT sA mulmxA.
have Be0 : H *m A *m H *m e0 n = a *: e0 n.
  by rewrite -mulmxA He -mulmxA Au -scalemxAr -He mulmxA HH mul1mx.
have c0 (i : 'I_n.+1) : (H *m A *m H) i 0 = a * (i == 0)%:R.
  move: (H *m A *m H) Be0 => C /colP /(_ i); rewrite [LHS]mxE (bigD1 0) //= big1 => [|j j0]; last by rewrite mxE (negPf j0) mulr0.
  by rewrite addr0 !mxE !eqxx mulr1 andbT.
pose B : 'M[R]_(1 + n) := H *m A *m H.
have eB0 : H *m A *m H = B by [].
have sB : B^T = B by exact: sB0.
have ul : ulsubmx B = a%:M.
  apply/matrixP=> i j; rewrite !ord1 [LHS]mxE [LHS]mxE [RHS]mxE eqxx mulr1n.
  by have := c0 0; rewrite eqxx mulr1 => <-; rewrite eB0; congr (B _ _); apply: val_inj.
have dl : dlsubmx B = 0.
  apply/matrixP=> i j; rewrite !ord1 [LHS]mxE [LHS]mxE [RHS]mxE.
  transitivity ((H *m A *m H) (lift 0 i) 0); last by rewrite c0 mulr0.
  by rewrite eB0; congr (B _ _); apply: val_inj.
have ur : ursubmx B = 0 by rewrite -sB -trmx_dlsub dl trmx0.
have sB' : sym (drsubmx B) by rewrite /sym trmx_drsub sB.
have [V' [d' [[o1 o2] hB]]] := IH _ sB'.
pose W : 'M[R]_(1 + n) := block_mx 1%:M 0 0 V'.
have oW : ortho W.
  by split; rewrite /W tr_block_mx !trmx0 trmx1 mulmx_block !(mul0mx, mulmx0, mul1mx, mulmx1) ?addr0 ?add0r ?o1 ?o2 -scalar_mx_block.
exists (H *m W), (row_mx a%:M d'); split; first by apply: ortho_mul => //; split; rewrite HT.
have eB : B = W *m diag_mx (row_mx a%:M d') *m W^T.
  have -> : diag_mx (row_mx a%:M d') = block_mx a%:M 0 0 (diag_mx d').
    rewrite diag_mx_row; congr block_mx; apply/matrixP=> i j; by rewrite !ord1 !mxE eqxx mulr1n.
  rewrite -[LHS]submxK ul ur dl hB /W tr_block_mx !trmx0 trmx1 !mulmx_block.
  by rewrite !(mul0mx, mulmx0, mul1mx, mulmx1, addr0, add0r).
rewrite trmx_mul HT !mulmxA -[H *m W *m _]mulmxA -[H *m _ *m W^T]mulmxA -eB /B.
by rewrite !mulmxA HH mul1mx -mulmxA HH mulmx1.
Qed.

(** Eigen::SelfAdjointEigenSolver: orthonormal eigenvectors as columns, eigenvalues in increasing order *)
Definition eigen_solver n (A V : 'M[R]_n) (d : 'rV[R]_n) : Prop :=
  [/\ V^T *m V = 1%:M, A = V *m diag_mx d *m V^T & forall i j : 'I_n, (i <= j)%N -> d 0 i <= d 0 j].
Lemma sort_perm n (d : 'I_n -> R) : exists s : 'S_n, forall i j : 'I_n, (i <= j)%N -> d (s i) <= d (s j).
Proof.
case: n d => [|n] d; first by exists 1%g => [[]].
pose r : rel 'I_n.+1 := fun i j => d i <= d j.
have rt : transitive r by move=> x y z; exact: le_trans.
have rtot : total r by move=> x y; exact: le_total.
pose l := sort r (enum 'I_n.+1); have sl : size l = n.+1 by rewrite size_sort size_enum_ord.
have ul : uniq l by rewrite sort_uniq enum_uniq.
have fi : injective (fun i : 'I_n.+1 => nth ord0 l i).
  by move=> i j /eqP; rewrite nth_uniq ?sl // => /eqP /val_inj.
exists (perm fi) => i j ij; rewrite !permE.
have rr : reflexive r by move=> x; exact: lexx.
by apply: (sorted_leq_nth rt rr ord0 (sort_sorted rtot (enum 'I_n.+1))); rewrite ?inE ?sl.
Qed.
Theorem eigen_solver_total n (A : 'M[R]_n) : sym A -> exists V d, eigen_solver A V d.
Proof.
move=> /spectral [V [d [[o1 o2] hA]]]; have [s hs] := sort_perm (d 0).
exists (col_perm s V), (\row_i d 0 (s i)); split.
- by apply/matrixP=> i j; rewrite -[1%:M]/(1%:M : 'M[R]_n) !mxE; move/matrixP/(_ (s i) (s j)): o1; rewrite !mxE (inj_eq perm_inj) => <-; apply: eq_bigr => k _; rewrite !mxE.
- rewrite hA; apply/matrixP=> i j; rewrite !mxE (reindex_inj (@perm_inj _ s)); apply: eq_bigr => k _.
  by rewrite !mul_mx_diag !mxE.
- by move=> i j ij; rewrite !mxE; apply: hs.
Qed.
End Spectral.
